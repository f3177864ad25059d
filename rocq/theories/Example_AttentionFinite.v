(** Independent draws of the parameters of attention with the moments of normal variables up
    to the fourth: the hypotheses of the theorems about finite attention layers can be met,
    for layers of all sizes. *)
From Coq Require Import Reals List Arith Lia Lra Bool.
From Coquelicot Require Import Coquelicot.
From Verif Require Import Base Model_Geom Model_Net Model_Finite Spec_Geom Spec_Predict Spec_Finite Spec_Conv Model_Attention Model_AttentionApply Spec_Attention
  Spec_AttentionFinite Proof_Net Proof_Finite Proof_AttentionFinite.
Import ListNotations.
Local Open Scope R_scope.

(** [- sqrt 3], [0] and [sqrt 3] with probabilities 1/6, 2/3 and 1/6. *)
Definition draw (f : R -> R) : R := (f (- sqrt 3) + 4 * f 0 + f (sqrt 3)) / 6.
Definition set_param (a : aparam) (t : R) (P : aparams) : aparams := fun b => if aparam_eq_dec b a then t else P b.
Fixpoint draw_all (ps : list aparam) (F : aparams -> R) : R :=
  match ps with
  | [] => F (fun _ => 0)
  | a :: ps => draw (fun t => draw_all ps (fun P => F (set_param a t P)))
  end.

Lemma draw_all_expectation ps : expectation (draw_all ps).
Proof.
  induction ps as [|a ps IH]; cbn.
  - split; auto.
  - split; unfold draw.
    + intros X Y H. rewrite !(E_ext _ IH _ (fun P => Y (set_param a _ P)) (fun P => H _)). reflexivity.
    + intros X Y. rewrite !(E_plus _ IH (fun P => X (set_param a _ P)) (fun P => Y (set_param a _ P))). lra.
    + intros c X. rewrite !(E_scale _ IH c (fun P => X (set_param a _ P))). lra.
    + rewrite (E_one _ IH). lra.
Qed.

Definition moment (k : nat) : R := draw (fun t => t ^ k).
Lemma moments : moment 0 = 1 /\ moment 1 = 0 /\ moment 2 = 1 /\ moment 3 = 0 /\ moment 4 = 3.
Proof.
  assert (S2 : sqrt 3 * sqrt 3 = 3) by (apply sqrt_sqrt; lra). unfold moment, draw. set (s := sqrt 3) in *.
  repeat split; cbn [pow].
  - lra.
  - lra.
  - replace (- s * (- s * 1) + 4 * (0 * (0 * 1)) + s * (s * 1)) with (2 * (s * s)) by ring. rewrite S2. lra.
  - lra.
  - replace (- s * (- s * (- s * (- s * 1))) + 4 * (0 * (0 * (0 * (0 * 1)))) + s * (s * (s * (s * 1)))) with (2 * (s * s) * (s * s)) by ring. rewrite S2. lra.
Qed.

Notation count := (count_occ aparam_eq_dec).
Definition drop_param (a : aparam) (l : list aparam) : list aparam := remove aparam_eq_dec a l.
Lemma product_set a t P l : product (map (set_param a t P) l) = t ^ (count l a) * product (map P (drop_param a l)).
Proof.
  induction l as [|b l IH]; [unfold product; cbn; ring|]. cbn [map drop_param remove count_occ].
  change (product (set_param a t P b :: map (set_param a t P) l)) with (set_param a t P b * product (map (set_param a t P) l)). rewrite IH. unfold drop_param. cbn [remove].
  destruct (aparam_eq_dec a b) as [<-|e].
  - unfold set_param. destruct (aparam_eq_dec a a); [|congruence]. cbn [pow]. ring.
  - unfold set_param. destruct (aparam_eq_dec b a); [congruence|]. cbn [map].
    change (product (P b :: map P (remove aparam_eq_dec a l))) with (P b * product (map P (remove aparam_eq_dec a l))). ring.
Qed.
Lemma count_drop a b l : b <> a -> count (drop_param a l) b = count l b.
Proof.
  intros Hn. unfold drop_param. induction l as [|c l IH]; cbn; [reflexivity|]. destruct (aparam_eq_dec a c) as [<- |].
  - destruct (aparam_eq_dec a b); [congruence|exact IH].
  - cbn. destruct (aparam_eq_dec c b); rewrite IH; reflexivity.
Qed.
Lemma product_mean ps : NoDup ps -> forall l, incl l ps -> draw_all ps (fun P => product (map P l)) = product (map (fun a => moment (count l a)) ps).
Proof.
  induction 1 as [|a ps Ha Hps IH]; intros l Hl; cbn [draw_all map].
  - destruct l as [|b l]; [reflexivity|]. destruct (Hl b (or_introl eq_refl)).
  - transitivity (draw (fun t => t ^ (count l a) * product (map (fun b => moment (count l b)) ps))).
    + assert (Q : forall t, draw_all ps (fun P => product (map (set_param a t P) l)) = t ^ (count l a) * product (map (fun b => moment (count l b)) ps)).
      { intros t. pose proof (draw_all_expectation ps) as HE.
        rewrite (E_ext _ HE _ (fun P => t ^ (count l a) * product (map P (drop_param a l)))) by (intros; apply product_set).
        rewrite (E_scale _ HE). f_equal. rewrite IH.
        - f_equal. apply map_ext_in. intros b Hb. rewrite count_drop; [reflexivity|]. intros ->. auto.
        - intros b Hb. unfold drop_param in Hb. apply in_remove in Hb. destruct Hb as [Hb Hn]. destruct (Hl b Hb); [congruence|auto]. }
      unfold draw. rewrite !Q. reflexivity.
    + change (product (moment (count l a) :: map (fun b => moment (count l b)) ps)) with (moment (count l a) * product (map (fun b => moment (count l b)) ps)).
      generalize (product (map (fun b => moment (count l b)) ps)). intros X. unfold moment, draw. field.
Qed.

(** Products of moments. *)
Lemma product_app l l' : product (l ++ l') = product l * product l'.
Proof. unfold product. induction l as [|a l IH]; cbn; [ring|]. rewrite IH. ring. Qed.
Lemma product_zero l : In 0 l -> product l = 0.
Proof. unfold product. induction l as [|a l IH]; cbn; [intros []|]. intros [->|H]; [ring|]. rewrite IH by auto. ring. Qed.
Lemma product_one l : (forall x, In x l -> x = 1) -> product l = 1.
Proof. unfold product. induction l as [|a l IH]; cbn; [reflexivity|]. intros H. rewrite (H a), IH by auto. ring. Qed.
Lemma product_at (f : aparam -> R) ps a : NoDup ps -> In a ps -> (forall b, In b ps -> b <> a -> f b = 1) -> product (map f ps) = f a.
Proof.
  induction 1 as [|b ps Hb Hps IH]; intros Ha Hf; [destruct Ha|]. cbn [map]. change (product (f b :: map f ps)) with (f b * product (map f ps)).
  destruct (aparam_eq_dec b a) as [->|Hn].
  - rewrite product_one; [ring|]. intros x Hx. apply in_map_iff in Hx. destruct Hx as (c & <- & Hc). apply Hf; [right; auto|]. intros ->. auto.
  - rewrite (Hf b) by (cbn; auto). rewrite IH; [ring| |intros; apply Hf; cbn; auto]. destruct Ha; [congruence|auto].
Qed.
Lemma product_odd l ps a : In a ps -> (count l a = 1 \/ count l a = 3)%nat -> product (map (fun a => moment (count l a)) ps) = 0.
Proof.
  intros Ha Hc. apply product_zero. apply in_map_iff. exists a. split; auto. destruct moments as (_ & M1 & _ & M3 & _). destruct Hc as [-> | ->]; assumption.
Qed.
Lemma product_even l ps : NoDup ps -> (forall a, In a ps -> count l a = 0 \/ count l a = 2)%nat -> product (map (fun a => moment (count l a)) ps) = 1.
Proof.
  intros _ Hc. apply product_one. intros x Hx. apply in_map_iff in Hx. destruct Hx as (a & <- & Ha). destruct moments as (M0 & _ & M2 & _). destruct (Hc a Ha) as [-> | ->]; assumption.
Qed.

Ltac counts := cbn [count_occ]; repeat match goal with |- context [aparam_eq_dec ?x ?y] => destruct (aparam_eq_dec x y); try congruence; subst end.
Lemma mean2_product kind s : NoDup kind -> (length s <= 2)%nat -> incl s kind -> product (map (fun a => moment (count s a)) kind) = mean2 s.
Proof.
  intros Hn Hl Hi. destruct s as [|a [|b [|c s]]]; [| | |cbn in Hl; lia].
  - apply product_even; auto.
  - apply (product_odd [a] kind a); [apply Hi; cbn; auto|]. left. counts; auto.
  - unfold mean2. destruct (aparam_eq_dec a b) as [->|Hab].
    + apply product_even; auto. intros c _. counts; auto.
    + apply (product_odd [a; b] kind a); [apply Hi; cbn; auto|]. left. counts; auto.
Qed.

Lemma apart_nodup kinds : apart kinds -> NoDup (concat kinds).
Proof.
  induction kinds as [|k ks IH]; cbn; [constructor|]. intros (Hk & Hd & Ha).
  assert (Happ : forall l1 l2 : list aparam, NoDup l1 -> NoDup l2 -> (forall b, In b l1 -> ~ In b l2) -> NoDup (l1 ++ l2)).
  { induction l1 as [|b l1 IH1]; intros l2 H1 H2 Hn; cbn; auto. inversion H1; subst. constructor.
    - rewrite in_app_iff; intros [X|X]; auto. apply (Hn b); cbn; auto.
    - apply IH1; auto. intros b' Hb'. apply Hn; cbn; auto. }
  apply Happ; auto. intros b Hb Hc. apply in_concat in Hc. destruct Hc as (k' & Hk' & Hb'). exact (Hd k' Hk' b Hb Hb').
Qed.
Lemma count_zero l a : ~ In a l -> count l a = 0%nat.
Proof. apply count_occ_not_In. Qed.
Lemma fits_incl sel kinds : fits sel kinds -> incl (concat sel) (concat kinds).
Proof. induction 1 as [|s k sel ks [_ Hi] _ IH]; cbn; [intros a []|]. apply incl_app; [apply incl_appl; auto|apply incl_appr; auto]. Qed.
Lemma draws_concat P sel : draws P sel = product (map P (concat sel)).
Proof. induction sel as [|s sel IH]; cbn [concat]; [reflexivity|]. rewrite draws_cons, map_app, product_app, IH. reflexivity. Qed.
Lemma means_product sel kinds : apart kinds -> fits sel kinds -> product (map (fun a => moment (count (concat sel) a)) (concat kinds)) = means sel.
Proof.
  intros A F. revert A. induction F as [|s k sel ks [Hl Hi] F IH]; intros A; [reflexivity|]. destruct A as (Hk & Hd & A). cbn [concat]. rewrite map_app, product_app, means_cons.
  pose proof (fits_incl _ _ F) as Hinc. apply f_equal2.
  - rewrite <- (mean2_product k s Hk Hl Hi). f_equal. apply map_ext_in. intros a Ha. rewrite count_occ_app, (count_zero (concat sel)); [rewrite Nat.add_0_r; reflexivity|].
    intros Hc. apply Hinc in Hc. apply in_concat in Hc. destruct Hc as (k' & Hk' & Ha'). exact (Hd k' Hk' a Ha Ha').
  - rewrite <- IH by auto. f_equal. apply map_ext_in. intros a Ha. rewrite count_occ_app, (count_zero s); [reflexivity|].
    intros Hc. apply Hi in Hc. apply in_concat in Ha. destruct Ha as (k' & Hk' & Ha'). exact (Hd k' Hk' a Hc Ha').
Qed.
(** Draws of all parameters are independent. *)
Lemma draws_independent kinds : apart kinds -> independent_kinds (draw_all (concat kinds)) kinds (fun P => P) (fun _ => 1).
Proof.
  intros A sel F. pose proof (draw_all_expectation (concat kinds)) as HE.
  rewrite (E_ext _ HE _ (fun P => product (map P (concat sel)))) by (intros; fold (draws w sel); rewrite draws_concat; ring).
  rewrite product_mean by (auto using apart_nodup; apply fits_incl; exact F). rewrite (E_one _ HE), means_product by auto. unfold means. ring.
Qed.
(** Draws of some parameters have the moments of normal variables. *)
Lemma draws_normal ps : NoDup ps -> normal_moments (draw_all ps) ps (fun P => P).
Proof.
  intros Hn. pose proof (draw_all_expectation ps) as HE. unfold normal_moments. cbv zeta. split.
  - intros a b Ha Hb. rewrite (E_ext _ HE _ (fun P => product (map P [a; b]))) by (intros; unfold product; cbn; ring).
    assert (Hi : incl [a; b] ps) by (intros c [<-|[<-|[]]]; auto).
    rewrite product_mean, mean2_product by (auto; cbn; lia). reflexivity.
  - intros a b c e Ha Hb Hc He. rewrite (E_ext _ HE _ (fun P => product (map P [a; b; c; e]))) by (intros; unfold product; cbn; ring).
    rewrite product_mean by (auto; intros x [<-|[<-|[<-|[<-|[]]]]]; auto).
    destruct (aparam_eq_dec a b) as [<-|Hab].
    + destruct (aparam_eq_dec c e) as [<-|Hce].
      * destruct (aparam_eq_dec a c) as [<-|Hac].
        -- rewrite (product_at (fun x => moment (count [a; a; a; a] x)) ps a Hn Ha).
           2: { intros x _ Hx. rewrite count_zero; [exact (proj1 moments)|]. intros K. cbn in K. intuition congruence. }
           replace (count [a; a; a; a] a) with 4%nat by (counts; reflexivity). destruct moments as (_ & _ & _ & _ & ->). ring.
        -- rewrite product_even; auto; [ring|]. intros x _. counts; auto.
      * destruct (aparam_eq_dec a c) as [<-|Hac]; [destruct (aparam_eq_dec a e); [congruence|]|destruct (aparam_eq_dec a e) as [<-|Hae]].
        -- rewrite (product_odd _ ps a) by (auto; right; counts; auto). ring.
        -- rewrite (product_odd _ ps a) by (auto; right; counts; auto). ring.
        -- rewrite (product_odd _ ps c) by (auto; left; counts; auto). ring.
    + destruct (aparam_eq_dec a c) as [<-|Hac], (aparam_eq_dec a e) as [<-|Hae].
      * destruct (aparam_eq_dec b a); [congruence|]. rewrite (product_odd _ ps b) by (auto; left; counts; auto). ring.
      * destruct (aparam_eq_dec b e) as [<-|Hbe]; [rewrite product_even; auto; [ring|intros x _; counts; auto]|].
        rewrite (product_odd _ ps b) by (auto; left; counts; auto). ring.
      * destruct (aparam_eq_dec b c) as [<-|Hbc]; [rewrite product_even; auto; [ring|intros x _; counts; auto]|].
        rewrite (product_odd _ ps b) by (auto; left; counts; auto). ring.
      * rewrite (product_odd _ ps a) by (auto; left; counts; auto). ring.
Qed.
