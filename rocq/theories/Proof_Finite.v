(** Layers that are affine in their parameters: moments and gradients. *)
From Coq Require Import List Arith Lia Bool Reals Lra.
From Coquelicot Require Import Coquelicot.
From Verif Require Import Base Model_Geom Model_Net Model_Finite Spec_Geom Spec_Predict Spec_Finite Proof_Geom Proof_Net.
Import ListNotations.
Local Open Scope R_scope.

Lemma NoDup_flat_map {A B} (l : list A) (f : A -> list B) :
  NoDup l -> (forall a, In a l -> NoDup (f a)) ->
  (forall a a' b, In a l -> In a' l -> In b (f a) -> In b (f a') -> a = a') -> NoDup (flat_map f l).
Proof.
  induction 1 as [|a l Ha Hl IH]; intros Hf Hd; cbn; [constructor|].
  assert (Happ : forall l1 l2 : list B, NoDup l1 -> NoDup l2 -> (forall b, In b l1 -> ~ In b l2) -> NoDup (l1 ++ l2)).
  { induction l1 as [|b l1 IH1]; intros l2 H1 H2 Hn; cbn; auto.
    inversion H1 as [|? ? Hb1 Hl1]; subst. constructor.
    - rewrite in_app_iff; intros [H|H]; auto. apply (Hn b); cbn; auto.
    - apply IH1; auto. intros b' Hb'. apply Hn; cbn; auto. }
  apply Happ.
  - apply Hf; cbn; auto.
  - apply IH; [intros a' Ha'; apply Hf; cbn; auto|]. intros a1 a2 b H1 H2. apply Hd; cbn; auto.
  - intros b Hb H. apply in_flat_map in H. destruct H as (a' & Ha' & Hb'). apply Ha.
    rewrite (Hd a a' b); cbn; auto.
Qed.

Lemma lsum_seq_single n i f : (i < n)%nat -> (forall j, (j < n)%nat -> j <> i -> f j = 0) -> lsum (seq 0 n) f = f i.
Proof. intros Hi H. apply lsum_single; [apply seq_NoDup|apply in_seq; lia|]. intros b Hb. apply in_seq in Hb. apply H; lia. Qed.

Section Expect.
  Context {Omega : Type} (E : (Omega -> R) -> R) (HE : expectation E).
  Lemma E_zero : E (fun _ => 0) = 0.
  Proof. rewrite (E_ext E HE _ (fun w => 0 * (fun _ => 0) w)) by (intros; lra). rewrite (E_scale E HE). lra. Qed.
  Lemma E_null X : (forall w, X w = 0) -> E X = 0.
  Proof. intros H. rewrite (E_ext E HE X (fun _ => 0)) by auto. apply E_zero. Qed.
  Lemma E_const c : E (fun _ => c) = c.
  Proof. rewrite (E_ext E HE _ (fun w => c * (fun _ => 1) w)) by (intros; lra). rewrite (E_scale E HE), (E_one E HE). lra. Qed.
  Lemma E_lsum {A} (l : list A) (f : A -> Omega -> R) : E (fun w => lsum l (fun a => f a w)) = lsum l (fun a => E (f a)).
  Proof.
    induction l as [|a l IH]; cbn; [apply E_zero|].
    rewrite (E_plus E HE (f a) (fun w => lsum l (fun a => f a w))). rewrite IH. reflexivity.
  Qed.
  Lemma E_scale_l c X Y : (forall w, Y w = c * X w) -> E Y = c * E X.
  Proof. intros H. rewrite (E_ext E HE _ (fun w => c * X w)) by auto. apply (E_scale E HE). Qed.

  Lemma white_scale ps z c X Y : (forall w, Y w = c * X w) -> white E ps z X -> white E ps z Y.
  Proof.
    intros H (W1 & W2). split.
    - intros a Ha. rewrite (E_scale_l c (fun w => z w a * X w)) by (intros; rewrite H; ring). rewrite W1; auto; lra.
    - intros a b Ha Hb. rewrite (E_scale_l c (fun w => z w a * z w b * X w)) by (intros; rewrite H; ring).
      rewrite W2; auto. destruct (param_eq_dec a b); [symmetry; apply E_scale_l; auto|lra].
  Qed.
  Lemma white_zero ps z X : (forall w, X w = 0) -> unit_draws E ps z -> white E ps z X.
  Proof. intros H. apply white_scale with (c := 0). intros; rewrite H; lra. Qed.
  (** Inputs that are not random are independent of anything. *)
  Lemma independent_fixed ps z (x y : act) : unit_draws E ps z -> independent E ps z (fun _ => x) (fun _ => y).
  Proof.
    intros H. split; [exact H|]. split; [|split]; intros.
    - apply white_scale with (c := x i p c) (X := fun _ => 1); auto; intros; lra.
    - apply white_scale with (c := y i p c) (X := fun _ => 1); auto; intros; lra.
    - apply white_scale with (c := x i p c * y j q c') (X := fun _ => 1); auto; intros; lra.
  Qed.
End Expect.

(** ** The general affine layer *)
Section Linear.
  Variables (tps : list loc) (rd : loc -> loc -> option loc) (pl : loc -> loc) (pls : list loc) (ch width : nat).
  Hypothesis Htps : NoDup tps.
  Hypothesis Hpls : NoDup pls.

  Definition weights : list param :=
    flat_map (fun s => flat_map (fun k => flat_map (fun c => map (fun o => PW s k c o) (seq 0 width)) (seq 0 ch)) tps) pls.
  Definition biases : list param := flat_map (fun s => map (PB s) (seq 0 width)) pls.
  Definition lin_params (bias : bool) : list param := weights ++ (if bias then biases else []).

  Definition lin_apply (bias : bool) (nu beta : R) (P : params) (x : act) : act := fun i p o =>
    nu * lsum tps (fun k => lsum (seq 0 ch) (fun c => P (PW (pl p) k c o) * read x i (rd p k) c))
    + (if bias then beta * P (PB (pl p) o) else 0).

  Definition coef (nu beta : R) (x : act) (i : nat) (p : loc) (o : nat) (a : param) : R :=
    match a with
    | PW s k c o1 => if loc_eqb s (pl p) && (o1 =? o)%nat then nu * read x i (rd p k) c else 0
    | PB s o1 => if loc_eqb s (pl p) && (o1 =? o)%nat then beta else 0
    end.

  Lemma in_weights s k c o : In (PW s k c o) weights <-> In s pls /\ In k tps /\ (c < ch)%nat /\ (o < width)%nat.
  Proof.
    unfold weights. split.
    - intros H. apply in_flat_map in H. destruct H as (s' & Hs & H). apply in_flat_map in H. destruct H as (k' & Hk & H).
      apply in_flat_map in H. destruct H as (c' & Hc & H). apply in_map_iff in H. destruct H as (o' & [= <- <- <- <-] & Ho).
      apply in_seq in Hc. apply in_seq in Ho. repeat split; auto; lia.
    - intros (Hs & Hk & Hc & Ho). apply in_flat_map. exists s. split; auto. apply in_flat_map. exists k. split; auto.
      apply in_flat_map. exists c. split; [apply in_seq; lia|]. apply in_map. apply in_seq; lia.
  Qed.
  Lemma in_biases s o : In (PB s o) biases <-> In s pls /\ (o < width)%nat.
  Proof.
    unfold biases. split.
    - intros H. apply in_flat_map in H. destruct H as (s' & Hs & H). apply in_map_iff in H. destruct H as (o' & [= <- <-] & Ho).
      apply in_seq in Ho. split; auto; lia.
    - intros (Hs & Ho). apply in_flat_map. exists s. split; auto. apply in_map. apply in_seq; lia.
  Qed.
  Lemma weights_PW a : In a weights -> exists s k c o, a = PW s k c o.
  Proof.
    unfold weights. intros H. apply in_flat_map in H. destruct H as (s' & Hs & H). apply in_flat_map in H. destruct H as (k' & Hk & H).
    apply in_flat_map in H. destruct H as (c' & Hc & H). apply in_map_iff in H. destruct H as (o' & <- & Ho). eauto.
  Qed.
  Lemma biases_PB a : In a biases -> exists s o, a = PB s o.
  Proof. unfold biases. intros H. apply in_flat_map in H. destruct H as (s' & Hs & H). apply in_map_iff in H. destruct H as (o' & <- & Ho). eauto. Qed.

  Lemma NoDup_weights : NoDup weights.
  Proof.
    unfold weights. apply NoDup_flat_map; auto.
    - intros s _. apply NoDup_flat_map; auto.
      + intros k _. apply NoDup_flat_map; [apply seq_NoDup| |].
        * intros c _. apply FinFun.Injective_map_NoDup; [|apply seq_NoDup]. intros o o' [= ->]; auto.
        * intros c c' a _ _ H H'. apply in_map_iff in H. apply in_map_iff in H'. destruct H as (? & <- & _), H' as (? & [= ] & _). auto.
      + intros k k' a _ _ H H'. apply in_flat_map in H. apply in_flat_map in H'. destruct H as (? & _ & H), H' as (? & _ & H').
        apply in_map_iff in H. apply in_map_iff in H'. destruct H as (? & <- & _), H' as (? & [= ] & _). auto.
    - intros s s' a _ _ H H'. apply in_flat_map in H. apply in_flat_map in H'. destruct H as (? & _ & H), H' as (? & _ & H').
      apply in_flat_map in H. apply in_flat_map in H'. destruct H as (? & _ & H), H' as (? & _ & H').
      apply in_map_iff in H. apply in_map_iff in H'. destruct H as (? & <- & _), H' as (? & [= ] & _). auto.
  Qed.
  Lemma NoDup_biases : NoDup biases.
  Proof.
    unfold biases. apply NoDup_flat_map; auto.
    - intros s _. apply FinFun.Injective_map_NoDup; [|apply seq_NoDup]. intros o o' [= ->]; auto.
    - intros s s' a _ _ H H'. apply in_map_iff in H. apply in_map_iff in H'. destruct H as (? & <- & _), H' as (? & [= ] & _). auto.
  Qed.
  Lemma NoDup_lin b : NoDup (lin_params b).
  Proof.
    unfold lin_params. destruct b; [|rewrite app_nil_r; apply NoDup_weights].
    assert (Happ : forall l1 l2 : list param, NoDup l1 -> NoDup l2 -> (forall b, In b l1 -> ~ In b l2) -> NoDup (l1 ++ l2)).
    { induction l1 as [|b l1 IH1]; intros l2 H1 H2 Hn; cbn; auto.
      inversion H1 as [|? ? Hb1 Hl1]; subst. constructor.
      - rewrite in_app_iff; intros [H|H]; auto. apply (Hn b); cbn; auto.
      - apply IH1; auto. intros b' Hb'. apply Hn; cbn; auto. }
    apply Happ; [apply NoDup_weights|apply NoDup_biases|].
    intros a H H'. apply weights_PW in H. apply biases_PB in H'. destruct H as (?&?&?&?&->), H' as (?&?&?). discriminate.
  Qed.

  Lemma lsum_weights (f : loc -> loc -> nat -> nat -> R) (g : param -> R) :
    (forall s k c o, g (PW s k c o) = f s k c o) ->
    lsum weights g = lsum pls (fun s => lsum tps (fun k => lsum (seq 0 ch) (fun c => lsum (seq 0 width) (fun o => f s k c o)))).
  Proof.
    intros H. unfold weights. rewrite lsum_flat_map. apply lsum_ext; intros s _. rewrite lsum_flat_map. apply lsum_ext; intros k _.
    rewrite lsum_flat_map. apply lsum_ext; intros c _. rewrite lsum_map. apply lsum_ext; intros o _. apply H.
  Qed.
  Lemma lsum_biases (f : loc -> nat -> R) (g : param -> R) :
    (forall s o, g (PB s o) = f s o) -> lsum biases g = lsum pls (fun s => lsum (seq 0 width) (fun o => f s o)).
  Proof. intros H. unfold biases. rewrite lsum_flat_map. apply lsum_ext; intros s _. rewrite lsum_map. apply lsum_ext; intros o _. apply H. Qed.

  (** Only the weights at the place and output channel in question matter. *)
  Lemma weights_at (f : loc -> loc -> nat -> nat -> R) s0 o0 : In s0 pls -> (o0 < width)%nat ->
    lsum pls (fun s => lsum tps (fun k => lsum (seq 0 ch) (fun c => lsum (seq 0 width) (fun o =>
      if loc_eqb s s0 && (o =? o0)%nat then f s k c o else 0)))) = lsum tps (fun k => lsum (seq 0 ch) (fun c => f s0 k c o0)).
  Proof.
    intros Hs Ho. rewrite (lsum_single pls s0); auto.
    - apply lsum_ext; intros k _. apply lsum_ext; intros c _. rewrite (lsum_seq_single width o0); auto.
      + rewrite loc_eqb_refl, Nat.eqb_refl. reflexivity.
      + intros o _ Hne. rewrite (proj2 (Nat.eqb_neq o o0)) by auto. rewrite andb_false_r. reflexivity.
    - intros s _ Hne. apply lsum_zero; intros k _. apply lsum_zero; intros c _. apply lsum_zero; intros o _.
      rewrite loc_eqb_neq by auto. reflexivity.
  Qed.
  Lemma biases_at (f : loc -> nat -> R) s0 o0 : In s0 pls -> (o0 < width)%nat ->
    lsum pls (fun s => lsum (seq 0 width) (fun o => if loc_eqb s s0 && (o =? o0)%nat then f s o else 0)) = f s0 o0.
  Proof.
    intros Hs Ho. rewrite (lsum_single pls s0); auto.
    - rewrite (lsum_seq_single width o0); auto.
      + rewrite loc_eqb_refl, Nat.eqb_refl. reflexivity.
      + intros o _ Hne. rewrite (proj2 (Nat.eqb_neq o o0)) by auto. rewrite andb_false_r. reflexivity.
    - intros s _ Hne. apply lsum_zero; intros o _. rewrite loc_eqb_neq by auto. reflexivity.
  Qed.

  Lemma lin_apply_coef bias nu beta P x i p o : In (pl p) pls -> (o < width)%nat ->
    lin_apply bias nu beta P x i p o = lsum (lin_params bias) (fun a => P a * coef nu beta x i p o a).
  Proof.
    intros Hp Ho. unfold lin_params. rewrite lsum_app.
    rewrite (lsum_weights (fun s k c o1 => if loc_eqb s (pl p) && (o1 =? o)%nat then P (PW s k c o1) * (nu * read x i (rd p k) c) else 0)).
    2:{ intros s k c o1. cbn [coef]. destruct (_ && _); lra. }
    rewrite weights_at by auto. unfold lin_apply. f_equal.
    - rewrite <- lsum_scale. apply lsum_ext; intros k _. rewrite <- lsum_scale. apply lsum_ext; intros c _. ring.
    - destruct bias; [|reflexivity].
      rewrite (lsum_biases (fun s o1 => if loc_eqb s (pl p) && (o1 =? o)%nat then P (PB s o1) * beta else 0)).
      2:{ intros s o1. cbn [coef]. destruct (_ && _); lra. }
      rewrite biases_at by auto. ring.
  Qed.

  (** Sum of the products of coefficients, with a weight for each kind of parameter. *)
  Definition by_kind (vw vb : R) (a : param) : R := match a with PW _ _ _ _ => vw | PB _ _ => vb end.
  Lemma coef_products bias nu beta vw vb (x y : act) i p o j q o' :
    In (pl p) pls -> In (pl q) pls -> (o < width)%nat -> (o' < width)%nat ->
    lsum (lin_params bias) (fun a => by_kind vw vb a * (coef nu beta x i p o a * coef nu beta y j q o' a))
    = if loc_eqb (pl p) (pl q) && (o =? o')%nat then
        vw * nu ^ 2 * lsum tps (fun k => lsum (seq 0 ch) (fun c => read x i (rd p k) c * read y j (rd q k) c))
        + (if bias then vb * beta ^ 2 else 0)
      else 0.
  Proof.
    intros Hp Hq Ho Ho'. destruct (loc_eqb (pl p) (pl q) && (o =? o')%nat) eqn:Heq.
    - apply andb_true_iff in Heq. destruct Heq as [H1 H2]. destruct (loc_eqb_spec (pl p) (pl q)) as [Hpq|]; [|discriminate].
      apply Nat.eqb_eq in H2. subst o'. unfold lin_params. rewrite lsum_app.
      rewrite (lsum_weights (fun s k c o1 => if loc_eqb s (pl p) && (o1 =? o)%nat then vw * ((nu * read x i (rd p k) c) * (nu * read y j (rd q k) c)) else 0)).
      2:{ intros s k c o1. cbn [coef by_kind]. rewrite <- Hpq. destruct (_ && _); lra. }
      rewrite weights_at by auto. f_equal.
      + rewrite <- lsum_scale. apply lsum_ext; intros k _. rewrite <- lsum_scale. apply lsum_ext; intros c _. ring.
      + destruct bias; [|reflexivity].
        rewrite (lsum_biases (fun s o1 => if loc_eqb s (pl p) && (o1 =? o)%nat then vb * (beta * beta) else 0)).
        2:{ intros s o1. cbn [coef by_kind]. rewrite <- Hpq. destruct (_ && _); lra. }
        rewrite biases_at by auto. ring.
    - apply lsum_zero. intros a _. assert (H0 : coef nu beta x i p o a * coef nu beta y j q o' a = 0); [|rewrite H0; lra].
      destruct a as [s k c o1|s o1]; cbn [coef];
        (destruct (loc_eqb_spec s (pl p)) as [H1|H1]; [|cbn; lra]); (destruct (Nat.eqb_spec o1 o) as [H2|H2]; [|cbn; lra]);
        (destruct (loc_eqb_spec s (pl q)) as [H3|H3]; [|cbn; lra]); (destruct (Nat.eqb_spec o1 o') as [H4|H4]; [|cbn; lra]); subst;
        rewrite Nat.eqb_refl in Heq; rewrite H3, loc_eqb_refl in Heq; discriminate.
  Qed.

  (** ** Gradients *)
  Lemma lin_apply_bump bias nu beta P a t x i p o : In a (lin_params bias) -> In (pl p) pls -> (o < width)%nat ->
    lin_apply bias nu beta (bump P a t) x i p o = lin_apply bias nu beta P x i p o + t * coef nu beta x i p o a.
  Proof.
    intros Ha Hp Ho. rewrite !lin_apply_coef by auto.
    assert (H : lsum (lin_params bias) (fun b => (if param_eq_dec b a then t * coef nu beta x i p o b else 0)) = t * coef nu beta x i p o a).
    { rewrite (lsum_single (lin_params bias) a); [|apply NoDup_lin|exact Ha|].
      - destruct (param_eq_dec a a); [reflexivity|congruence].
      - intros b _ Hb. destruct (param_eq_dec b a); [congruence|reflexivity]. }
    rewrite <- H, <- lsum_plus. apply lsum_ext. intros b _. unfold bump. destruct (param_eq_dec b a); ring.
  Qed.
  Lemma lin_own_derivative bias nu beta P a x i p o : In a (lin_params bias) -> In (pl p) pls -> (o < width)%nat ->
    Derive (fun t => lin_apply bias nu beta (bump P a t) x i p o) 0 = coef nu beta x i p o a.
  Proof.
    intros Ha Hp Ho. apply is_derive_unique.
    apply is_derive_ext with (f := fun t => lin_apply bias nu beta P x i p o + t * coef nu beta x i p o a).
    - intros t. symmetry. apply lin_apply_bump; auto.
    - auto_derive; auto. lra.
  Qed.
  Lemma lin_own_gradients bias nu beta P x y i p o j q o' :
    In (pl p) pls -> In (pl q) pls -> (o < width)%nat -> (o' < width)%nat ->
    own_gradients (lin_params bias) (lin_apply bias nu beta) P x y i p o j q o'
    = if loc_eqb (pl p) (pl q) && (o =? o')%nat then
        nu ^ 2 * lsum tps (fun k => lsum (seq 0 ch) (fun c => read x i (rd p k) c * read y j (rd q k) c))
        + (if bias then beta ^ 2 else 0)
      else 0.
  Proof.
    intros Hp Hq Ho Ho'. unfold own_gradients.
    transitivity (lsum (lin_params bias) (fun a => by_kind 1 1 a * (coef nu beta x i p o a * coef nu beta y j q o' a))).
    - apply lsum_ext; intros a Ha. rewrite !lin_own_derivative by auto. destruct a; cbn [by_kind]; ring.
    - rewrite coef_products by auto. destruct (_ && _); [|reflexivity]. destruct bias; lra.
  Qed.

  Lemma is_derive_lsum {A} (l : list A) (f : A -> R -> R) (d : A -> R) t0 :
    (forall a, In a l -> is_derive (f a) t0 (d a)) -> is_derive (fun t => lsum l (fun a => f a t)) t0 (lsum l d).
  Proof.
    induction l as [|a l IH]; intros H; cbn.
    - apply (is_derive_const (V := R_NormedModule) 0 t0).
    - apply (is_derive_plus (f a) (fun t => lsum l (fun a => f a t)) t0 (d a) (lsum l d)); [apply H; cbn; auto|].
      apply IH. intros b Hb. apply H; cbn; auto.
  Qed.
  Lemma lin_input_derivative bias nu beta P (x : R -> act) (dx : act) i p o :
    (forall i p c, is_derive (fun t => x t i p c) 0 (dx i p c)) ->
    is_derive (fun t => lin_apply bias nu beta P (x t) i p o) 0 (lin_apply bias nu 0 P dx i p o).
  Proof.
    intros Hx. unfold lin_apply.
    apply (is_derive_plus (fun t => nu * lsum tps (fun k => lsum (seq 0 ch) (fun c => P (PW (pl p) k c o) * read (x t) i (rd p k) c)))
             (fun _ => if bias then beta * P (PB (pl p) o) else 0)).
    - apply (is_derive_scal (fun t => lsum tps (fun k => lsum (seq 0 ch) (fun c => P (PW (pl p) k c o) * read (x t) i (rd p k) c)))).
      apply is_derive_lsum; intros k _. apply is_derive_lsum; intros c _.
      apply (is_derive_scal (fun t => read (x t) i (rd p k) c)).
      unfold read. destruct (rd p k); [apply Hx|apply (is_derive_const (V := R_NormedModule) 0 0)].
    - replace (if bias then 0 * P (PB (pl p) o) else 0) with 0 by (destruct bias; lra).
      apply (is_derive_const (V := R_NormedModule) (if bias then beta * P (PB (pl p) o) else 0) 0).
  Qed.

  (** ** Moments *)
  Context {Omega : Type} (E : (Omega -> R) -> R) (HE : expectation E).

  Lemma white_read ps z (x : Omega -> act) i p k c : independent E ps z x x -> white E ps z (fun w => read (x w) i (rd p k) c).
  Proof.
    intros (U & H & _). unfold read. destruct (rd p k); [apply H|]. apply white_zero; auto.
  Qed.
  Lemma white_coef bias nu beta z (x y : Omega -> act) i p o j q o' a b : independent E (lin_params bias) z x y ->
    white E (lin_params bias) z (fun w => coef nu beta (x w) i p o a * coef nu beta (y w) j q o' b).
  Proof.
    intros (U & H1 & H2 & H12).
    assert (Z : white E (lin_params bias) z (fun _ => 0)) by (apply white_zero; auto).
    destruct a as [s k c o1|s o1], b as [s' k' c' o2|s' o2]; cbn [coef];
      destruct (loc_eqb s (pl p) && _), (loc_eqb s' (pl q) && _); try (apply white_zero; auto; intros; lra); unfold read.
    - destruct (rd p k) as [u|]; [|apply white_zero; auto; intros; lra]. destruct (rd q k') as [v|]; [|apply white_zero; auto; intros; lra].
      eapply (white_scale E HE _ _ (nu * nu)); [|apply (H12 i j u v c c')]. intros w; cbv beta; ring.
    - destruct (rd p k) as [u|]; [|apply white_zero; auto; intros; lra].
      eapply (white_scale E HE _ _ (nu * beta)); [|apply (H1 i u c)]. intros w; cbv beta; ring.
    - destruct (rd q k') as [v|]; [|apply white_zero; auto; intros; lra].
      eapply (white_scale E HE _ _ (nu * beta)); [|apply (H2 j v c')]. intros w; cbv beta; ring.
    - eapply (white_scale E HE _ _ (beta * beta)); [|exact U]. intros w; cbv beta; ring.
  Qed.

  Lemma lin_moment bias nu beta sw sb z (x y : Omega -> act) i p o j q o' :
    In (pl p) pls -> In (pl q) pls -> (o < width)%nat -> (o' < width)%nat ->
    independent E (lin_params bias) z x y ->
    E (fun w => lin_apply bias nu beta (fun a => z w a * by_kind sw sb a) (x w) i p o
                * lin_apply bias nu beta (fun a => z w a * by_kind sw sb a) (y w) j q o')
    = if loc_eqb (pl p) (pl q) && (o =? o')%nat then
        (nu * sw) ^ 2 * lsum tps (fun k => lsum (seq 0 ch) (fun c => E (fun w => read (x w) i (rd p k) c * read (y w) j (rd q k) c)))
        + (if bias then (beta * sb) ^ 2 else 0)
      else 0.
  Proof.
    intros Hp Hq Ho Ho' Hind. set (ps := lin_params bias) in *.
    transitivity (E (fun w => lsum ps (fun a => lsum ps (fun b =>
        by_kind sw sb a * by_kind sw sb b * (z w a * z w b * (coef nu beta (x w) i p o a * coef nu beta (y w) j q o' b)))))).
    { apply (E_ext E HE). intros w. rewrite !lin_apply_coef by auto. fold ps. rewrite lsum_mult.
      apply lsum_ext; intros a _. apply lsum_ext; intros b _. ring. }
    rewrite (E_lsum E HE ps (fun a w => lsum ps (fun b =>
        by_kind sw sb a * by_kind sw sb b * (z w a * z w b * (coef nu beta (x w) i p o a * coef nu beta (y w) j q o' b))))).
    transitivity (lsum ps (fun a => lsum ps (fun b => if param_eq_dec a b then
        E (fun w => by_kind (sw ^ 2) (sb ^ 2) a * (coef nu beta (x w) i p o a * coef nu beta (y w) j q o' a)) else 0))).
    { apply lsum_ext; intros a Ha.
      rewrite (E_lsum E HE ps (fun b w => by_kind sw sb a * by_kind sw sb b * (z w a * z w b * (coef nu beta (x w) i p o a * coef nu beta (y w) j q o' b)))).
      apply lsum_ext; intros b Hb.
      rewrite (E_scale E HE (by_kind sw sb a * by_kind sw sb b) (fun w => z w a * z w b * (coef nu beta (x w) i p o a * coef nu beta (y w) j q o' b))).
      destruct (white_coef bias nu beta z x y i p o j q o' a b Hind) as [_ W]. fold ps in W. rewrite (W a b Ha Hb).
      destruct (param_eq_dec a b) as [<-|]; [|lra].
      rewrite (E_scale E HE (by_kind (sw ^ 2) (sb ^ 2) a) (fun w => coef nu beta (x w) i p o a * coef nu beta (y w) j q o' a)).
      f_equal. destruct a; cbn [by_kind]; ring. }
    transitivity (lsum ps (fun a => E (fun w => by_kind (sw ^ 2) (sb ^ 2) a * (coef nu beta (x w) i p o a * coef nu beta (y w) j q o' a)))).
    { apply lsum_ext; intros a Ha. rewrite (lsum_single ps a); [|apply NoDup_lin|exact Ha|].
      - destruct (param_eq_dec a a); [reflexivity|congruence].
      - intros b _ Hb. destruct (param_eq_dec a b); [congruence|reflexivity]. }
    rewrite <- (E_lsum E HE ps (fun a w => by_kind (sw ^ 2) (sb ^ 2) a * (coef nu beta (x w) i p o a * coef nu beta (y w) j q o' a))).
    erewrite (E_ext E HE); [|intros w; apply coef_products; auto].
    destruct (loc_eqb (pl p) (pl q) && (o =? o')%nat); [|apply E_zero; auto].
    rewrite (E_plus E HE (fun w => sw ^ 2 * nu ^ 2 * lsum tps (fun k => lsum (seq 0 ch) (fun c => read (x w) i (rd p k) c * read (y w) j (rd q k) c))) (fun _ => if bias then sb ^ 2 * beta ^ 2 else 0)).
    rewrite (E_const E HE).
    rewrite (E_scale E HE _ (fun w => lsum tps (fun k => lsum (seq 0 ch) (fun c => read (x w) i (rd p k) c * read (y w) j (rd q k) c)))).
    rewrite (E_lsum E HE tps (fun k w => lsum (seq 0 ch) (fun c => read (x w) i (rd p k) c * read (y w) j (rd q k) c))).
    f_equal.
    - replace (sw ^ 2 * nu ^ 2) with ((nu * sw) ^ 2) by ring. f_equal. apply lsum_ext; intros k _.
      apply (E_lsum E HE (seq 0 ch) (fun c w => read (x w) i (rd p k) c * read (y w) j (rd q k) c)).
    - destruct bias; ring.
  Qed.

  Lemma lin_mean bias nu beta sw sb z (x : Omega -> act) i p o :
    In (pl p) pls -> (o < width)%nat -> independent E (lin_params bias) z x x ->
    E (fun w => lin_apply bias nu beta (fun a => z w a * by_kind sw sb a) (x w) i p o) = 0.
  Proof.
    intros Hp Ho Hind. set (ps := lin_params bias) in *.
    transitivity (E (fun w => lsum ps (fun a => by_kind sw sb a * (z w a * coef nu beta (x w) i p o a)))).
    { apply (E_ext E HE). intros w. rewrite lin_apply_coef by auto. fold ps. apply lsum_ext; intros a _. ring. }
    rewrite (E_lsum E HE ps (fun a w => by_kind sw sb a * (z w a * coef nu beta (x w) i p o a))).
    apply lsum_zero. intros a Ha. rewrite (E_scale E HE _ (fun w => z w a * coef nu beta (x w) i p o a)).
    assert (W : white E ps z (fun w => coef nu beta (x w) i p o a)).
    { destruct Hind as (U & H1 & _). destruct a as [s k c o1|s o1]; cbn [coef]; destruct (_ && _); try (apply white_zero; auto; intros; lra).
      - unfold read. destruct (rd p k) as [u|]; [|apply white_zero; auto; intros; lra].
        eapply (white_scale E HE _ _ nu); [|apply (H1 i u c)]. intros w; cbv beta; ring.
      - eapply (white_scale E HE _ _ beta); [|exact U]. intros w; cbv beta; ring. }
    rewrite (proj1 W a Ha). lra.
  Qed.
End Linear.
