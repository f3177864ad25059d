(** Copies, [neg], [zeros_like], [transpose], [squeeze], [rev]. *)
From Coq Require Import Reals ZArith List Arith Lia Lra Bool Permutation.
From Verif Require Import Base Tensor Reshape Model_Net Model_Predict Model_Empirical Model_Structure Model_Aggregate Model_Structured Model_Lax Model_Rules
  Spec_Structure Spec_Structured Spec_Rules Proof_Linalg Proof_Tsum Proof_Einsum Proof_Structure Proof_Structured Proof_Structured2 Proof_Structured3 Proof_Structured4 Proof_Rules Proof_Rules2 Proof_Rules3.
Import ListNotations.
Local Open Scope R_scope.

(** * Pairs of axes *)

Lemma combine_fun_l {A B} (a : A) : forall (l : list A) (m : list B) x y, NoDup l -> In (a, x) (combine l m) -> In (a, y) (combine l m) -> x = y.
Proof.
  induction l as [|z l IH]; intros [|w m] x y N; cbn; try easy. inversion N; subst. intros [E|I] [F|K]; try congruence; try (eapply IH; eauto; fail).
  - injection E as <- <-. apply in_combine_l in K. easy.
  - injection F as <- <-. apply in_combine_l in I. easy.
Qed.
Lemma combine_fun_r {A B} : forall (l : list A) (m : list B) b x y, NoDup m -> In (x, b) (combine l m) -> In (y, b) (combine l m) -> x = y.
Proof.
  induction l as [|z l IH]; intros [|w m] b x y N; cbn; try easy. inversion N; subst. intros [E|I] [F|K]; try congruence; try (eapply IH; eauto; fail).
  - injection E as <- <-. apply in_combine_r in K. easy.
  - injection F as <- <-. apply in_combine_r in I. easy.
Qed.
Lemma pair_mem (t : nat -> bool) A B a b : NoDup A -> NoDup B -> In (a, b) (combine A B) ->
  mem a (map fst (filter (fun x : nat * nat => t (snd x)) (combine A B))) = t b /\ mem b (map snd (filter (fun x : nat * nat => t (snd x)) (combine A B))) = t b.
Proof.
  intros NA NB I. split; apply bool_eq_iff; rewrite mem_iff, in_map_iff; split.
  - intros ((x & y) & E & K). cbn in E. subst x. apply filter_In in K. destruct K as [K T]. cbn in T. now rewrite (combine_fun_l a _ _ b y NA I K).
  - intros T. exists (a, b). split; auto. apply filter_In. auto.
  - intros ((x & y) & E & K). cbn in E. subst y. apply filter_In in K. now destruct K as [K T].
  - intros T. exists (a, b). split; auto. apply filter_In. auto.
Qed.
Lemma pair_mem_out_l (t : nat -> bool) A B a : ~ In a A -> mem a (map fst (filter (fun x : nat * nat => t (snd x)) (combine A B))) = false.
Proof.
  intros N. apply mem_false. intros I. apply in_map_iff in I. destruct I as ((x & y) & E & K). cbn in E. subst x. apply filter_In in K. destruct K as [K _].
  apply in_combine_l in K. easy.
Qed.
Lemma pair_mem_out_r (t : nat -> bool) A B b : ~ In b B -> mem b (map snd (filter (fun x : nat * nat => t (snd x)) (combine A B))) = false.
Proof.
  intros N. apply mem_false. intros I. apply in_map_iff in I. destruct I as ((x & y) & E & K). cbn in E. subst y. apply filter_In in K. destruct K as [K _].
  apply in_combine_r in K. easy.
Qed.
Lemma in_combine_same (l : list nat) a b : In (a, b) (combine l l) <-> a = b /\ In a l.
Proof. induction l as [|x l IH]; cbn; [easy|]. rewrite IH. split; [intros [E|[E I]]|intros [<- [->|I]]]; [injection E; intuition congruence|auto|auto|auto]. Qed.
Lemma in_combine_map (f : nat -> nat) l a b : In (a, b) (combine (map f l) l) <-> a = f b /\ In b l.
Proof. induction l as [|x l IH]; cbn; [easy|]. rewrite IH. split; [intros [E|[E I]]|intros [-> [->|I]]]; [injection E; intuition congruence|auto|auto|auto]. Qed.
Lemma in_combine_seq : forall (l : list nat) s a b, In (a, b) (combine (seq s (length l)) l) <-> (s <= a < s + length l)%nat /\ nth (a - s) l 0%nat = b.
Proof.
  induction l as [|x l IH]; intros s a b; cbn [length seq combine]; [split; [easy|lia]|]. cbn [In]. rewrite IH. split.
  - intros [E|[R E]].
    + injection E as <- <-. rewrite Nat.sub_diag. cbn. lia.
    + replace (a - s)%nat with (S (a - S s)) by lia. cbn [nth]. split; [cbn [length]|auto]. cbn [length]; lia.
  - intros [R E]. destruct (Nat.eq_dec a s) as [->|N]; [left; rewrite Nat.sub_diag in E; cbn in E; congruence|right].
    replace (a - s)%nat with (S (a - S s)) in E by lia. cbn [nth] in E. cbn [length] in R. split; [lia|auto].
Qed.

Lemma map_seq_at' (g : nat -> nat) n q : (q < n)%nat -> nth q (map g (seq 0 n)) 0%nat = g q.
Proof. intros H. rewrite (nth_map_in _ _ _ _ 0%nat) by (now rewrite seq_length). now rewrite seq_nth. Qed.
Lemma ravel_unravel : forall sh k, (k < size sh)%nat -> ravel sh (unravel sh k) = k.
Proof.
  induction sh as [|s sh IH]; intros k H; cbn in *; [lia|]. assert (0 < size sh)%nat by nia. rewrite IH by (apply Nat.mod_upper_bound; lia).
  pose proof (Nat.div_mod k (size sh)). lia.
Qed.
Lemma index_of_app_in a : forall l m, In a l -> index_of a (l ++ m) = index_of a l.
Proof. induction l as [|x l IH]; intros m I; cbn in *; [easy|]. destruct (Nat.eqb_spec a x); auto. f_equal. apply IH. intuition congruence. Qed.
Lemma index_of_app_out a : forall l m, ~ In a l -> index_of a (l ++ m) = (length l + index_of a m)%nat.
Proof. induction l as [|x l IH]; intros m I; cbn in *; auto. destruct (Nat.eqb_spec a x); [intuition congruence|]. rewrite IH by tauto. reflexivity. Qed.
Lemma some_eq {A} (a b : A) : a = b -> Some a = Some b.
Proof. congruence. Qed.

(** * Copies *)

Lemma tr_same_sound p k (src : list nat -> list nat -> option (list nat)) ws c :
  not_reshape p ->
  (forall ws, src ws = (fun y => Some y) \/ src ws = (fun _ => None)) -> (forall ws ws', src ws = src ws') ->
  (forall t, exists o, lax_eval p [t] = Ok o /\ shape o = shape t /\ forall y, entry o y = match src (shape t) y with Some v => k * entry t v | None => 0 end) ->
  (forall ws, rule_ok p 0 [Undefined ws] ws ws (gather (src ws) (fun _ => k))) ->
  structure_rule p 0 [ws] ws = Ok (trace_only (seq 0 (length ws)) (seq 0 (length ws)) [0%nat]) ->
  common ws c -> sound p 0 [Undefined ws] ws ws c (gather (src ws) (fun _ => k)).
Proof.
  intros Hp Hsrc Hsame He Hr Hs Hc.
  apply (unary_sound p src k (fun ws ys => ws = ys)) with (A := seq 0 (length ws)) (B := seq 0 (length ws)); auto.
  - intros w1 y1 <- t <-. destruct (He t) as (o & E & S & F). exists o. auto.
  - intros w1 y1 y v <- Hy Ev. destruct (Hsrc w1) as [E|E]; rewrite E in Ev; [now injection Ev as <-|easy].
  - intros w1 y1 <-. apply Hr.
  - apply seq_NoDup.
  - apply seq_NoDup.
  - intros a b I. apply in_combine_same in I. destruct I as [<- I]. apply in_seq in I. repeat split; lia.
  - intros y v a b Hy Ev I. apply in_combine_same in I. destruct I as [<- I]. destruct (Hsrc ws) as [E|E]; rewrite E in Ev; [now injection Ev as <-|easy].
  - intros t P. assert (E : map fst P = map snd P).
    { unfold P. generalize (seq 0 (length ws)). intros l. induction l as [|x l IH]; cbn; auto. destruct (t x); cbn; congruence. }
    rewrite E. split; auto. intros y Hy. rewrite (Hsame _ ws). destruct (Hsrc ws) as [Q|Q]; now rewrite Q.
Qed.

Lemma ravel_delta ws y w k : in_range ws y -> in_range ws w -> (if (ravel ws y =? ravel ws w)%nat then k else 0) = (if list_eq_dec Nat.eq_dec y w then k else 0).
Proof.
  intros Hy Hw. destruct (list_eq_dec Nat.eq_dec y w) as [->|N]; [now rewrite Nat.eqb_refl|].
  destruct (Nat.eqb_spec (ravel ws y) (ravel ws w)) as [E|]; auto. exfalso. apply N. now apply (ravel_inj ws).
Qed.

Lemma identity_sound ws c : common ws c -> sound Identity 0 [Undefined ws] ws ws c (gather (fun y => Some y) (fun _ => 1)).
Proof.
  apply (tr_same_sound Identity 1 (fun _ y => Some y)); cbn; auto.
  - intros t. exists t. repeat split; auto. intros. ring.
  - intros w1. unfold rule_ok. cbn. destruct (eye_like_ok w1 w1 eq_refl) as (j & E & S & V). exists j. repeat split; auto.
    intros y w Hy Hw. rewrite V by auto. unfold gather. now apply ravel_delta.
Qed.
Lemma copy_sound ws c : common ws c -> sound Copy 0 [Undefined ws] ws ws c (gather (fun y => Some y) (fun _ => 1)).
Proof.
  apply (tr_same_sound Copy 1 (fun _ y => Some y)); cbn; auto.
  - intros t. exists t. repeat split; auto. intros. ring.
  - intros w1. unfold rule_ok. cbn. destruct (eye_like_ok w1 w1 eq_refl) as (j & E & S & V). exists j. repeat split; auto.
    intros y w Hy Hw. rewrite V by auto. unfold gather. now apply ravel_delta.
Qed.
Lemma neg_sound ws c : common ws c -> sound Neg 0 [Undefined ws] ws ws c (gather (fun y => Some y) (fun _ => -1)).
Proof.
  apply (tr_same_sound Neg (-1) (fun _ y => Some y)); cbn; auto.
  - intros t. eexists. split; [reflexivity|]. repeat split; auto. intros. cbn. ring.
  - intros w1. unfold rule_ok. cbn. destruct (eye_like_ok w1 w1 eq_refl) as (j & E & S & V). rewrite E. eexists. split; [reflexivity|]. split; auto.
    intros y w Hy Hw. cbn. rewrite V by auto. unfold gather. rewrite <- ravel_delta with (ws := w1) by auto. destruct (_ =? _)%nat; ring.
Qed.
Lemma zeros_like_sound ws c : common ws c -> sound ZerosLike 0 [Undefined ws] ws ws c (gather (fun y => None) (fun _ => 1)).
Proof.
  apply (tr_same_sound ZerosLike 1 (fun _ y => None)); cbn; auto.
  - intros t. eexists. split; [reflexivity|]. repeat split; auto.
  - intros w1. unfold rule_ok. cbn. eexists. split; [reflexivity|]. split; auto.
Qed.

(** * [transpose] *)

Definition transpose_src (perm ws y : list nat) : option (list nat) := Some (map (fun a => nth (index_of a perm) y 0%nat) (seq 0 (length ws))).
Definition transpose_valid (perm ws ys : list nat) : Prop := is_perm (length ws) perm /\ ys = map (fun a => nth a ws 0%nat) perm.

Lemma jnp_transpose_inv {A} perm (t o : tensor A) : jnp_transpose perm t = Ok o -> is_perm (ndim t) perm /\ o = transpose perm t.
Proof.
  unfold jnp_transpose. destruct ((length perm =? ndim t)%nat && nodupb perm && forallb (fun a => (a <? ndim t)%nat) perm) eqn:E; [|easy].
  intros H. split; [|congruence]. apply andb_prop in E. destruct E as [E E3]. apply andb_prop in E. destruct E as [E1 E2]. apply Nat.eqb_eq in E1.
  apply Tensor.nodupb_NoDup in E2. unfold is_perm. apply NoDup_Permutation_bis; auto.
  - rewrite seq_length. lia.
  - intros a I. apply in_seq. rewrite forallb_forall in E3. apply E3, Nat.ltb_lt in I. lia.
Qed.

Lemma transpose_rev_perm n perm : is_perm n perm -> forall a, (a < n)%nat -> (index_of a perm < n)%nat /\ nth (index_of a perm) perm 0%nat = a.
Proof.
  intros H a Ha. assert (I : In a perm) by (now apply (is_perm_In n)). destruct (index_of_In_lt _ _ I) as [L E]. rewrite (is_perm_length _ _ H) in L. auto.
Qed.

Lemma size_permuted perm ws : is_perm (length ws) perm -> size (map (fun a => nth a ws 0%nat) perm) = size ws.
Proof.
  intros H. transitivity (size (map (fun a => nth a ws 0%nat) (seq 0 (length ws)))); [|now rewrite map_nth_seq_all].
  unfold is_perm in H. induction H; cbn; nia.
Qed.
Lemma in_range_back n perm ws y : is_perm n perm -> length ws = n -> in_range (map (fun a => nth a ws 0%nat) perm) y ->
  in_range ws (map (fun a => nth (index_of a perm) y 0%nat) (seq 0 n)).
Proof.
  intros Hp Hn Hy. apply in_range_nth. rewrite map_length, seq_length. split; [auto|]. intros a Ha. rewrite Hn in Ha. rewrite map_seq_at' by auto.
  destruct (transpose_rev_perm _ _ Hp a Ha) as [L E]. apply in_range_nth in Hy. destruct Hy as [_ Hy]. rewrite map_length, (is_perm_length _ _ Hp) in Hy.
  specialize (Hy _ L). rewrite (nth_map_in _ _ _ _ 0%nat) in Hy by (now rewrite (is_perm_length _ _ Hp)). now rewrite E in Hy.
Qed.
Lemma transpose_sound perm ws ys c : transpose_valid perm ws ys -> common ws c -> sound (Transpose perm) 0 [Undefined ws] ws ys c (gather (transpose_src perm ws) (fun _ => 1)).
Proof.
  intros V Hc. destruct V as [Hperm Hys]. pose proof (is_perm_length _ _ Hperm) as Lp. pose proof (is_perm_NoDup _ _ Hperm) as Np.
  assert (Ly : length ys = length ws) by (rewrite Hys, map_length; auto).
  assert (Rv := transpose_rev_perm _ _ Hperm).
  apply (unary_sound (Transpose perm) (transpose_src perm) 1 (transpose_valid perm)) with
    (A := map (fun i => index_of i perm) (seq 0 (length ys))) (B := seq 0 (length ys)); auto.
  - exact I.
  - intros w1 y1 [H1 H2] t Ht. cbn [lax_eval]. rewrite jnp_transpose_ok by (unfold ndim; now rewrite Ht). eexists. split; [reflexivity|]. cbn. split; [now rewrite Ht|].
    intros y Hy. unfold transpose_src, ndim. rewrite Ht. ring.
  - intros w1 y1 y v [H1 H2] Hy Ev. injection Ev as <-. rewrite H2 in Hy. now apply in_range_back.
  - intros w1 y1 [H1 H2]. unfold rule_ok. cbn [jacobian_rule vshape nth]. unfold _transpose_j.
    pose proof (is_perm_length _ _ H1) as L1. assert (Ly1 : length y1 = length w1) by (rewrite H2, map_length; auto).
    assert (Sz : size y1 = size w1).
    { rewrite H2. now apply size_permuted. }
    destruct (eye_like_ok y1 w1 Sz) as (j0 & E0 & S0 & V0). rewrite E0. cbn [bind].
    destruct (reshape_ok (w1 ++ w1) j0) as (j1 & E1). { rewrite S0, !size_app. now rewrite Sz. }
    rewrite E1. cbn [bind].
    assert (S1 := reshape_shape _ _ _ E1).
    assert (V1 : forall y w, in_range w1 y -> in_range w1 w -> entry j1 (y ++ w) = if list_eq_dec Nat.eq_dec y w then 1 else 0).
    { intros y w Hy Hw. assert (Hyr : in_range y1 (unravel y1 (ravel w1 y))) by (apply unravel_in_range; rewrite Sz; now apply ravel_lt).
      rewrite (reshape_entry _ _ _ (y ++ w) (unravel y1 (ravel w1 y) ++ w) E1).
      - rewrite V0 by auto.
        rewrite ravel_unravel by (rewrite Sz; now apply ravel_lt). now apply ravel_delta.
      - rewrite S0. now apply in_range_app.
      - rewrite S0, !ravel_app by (apply in_range_length; auto).
        rewrite ravel_unravel; auto. rewrite Sz; now apply ravel_lt. }
    set (n := length w1) in *. rewrite Ly1. fold n.
    assert (Pm : is_perm (ndim j1) (perm ++ map (fun i => (i + n)%nat) (seq 0 n))).
    { unfold ndim. rewrite S1, app_length. fold n. unfold is_perm. rewrite seq_app. apply Permutation_app; auto. cbn [plus].
      replace (map (fun i => (i + n)%nat) (seq 0 n)) with (seq n n); auto. clear. apply (nth_ext _ _ 0%nat 0%nat); rewrite ?map_length, !seq_length; auto.
      intros i Hi. rewrite map_seq_at', seq_nth by auto. lia. }
    rewrite jnp_transpose_ok by auto. cbn [bind].
    set (j2 := transpose (perm ++ map (fun i => (i + n)%nat) (seq 0 n)) j1).
    assert (S2 : shape j2 = y1 ++ w1).
    { unfold j2. cbn. rewrite map_app, S1. f_equal.
      - rewrite H2. apply map_ext_in. intros a Ia. rewrite app_nth1; auto. apply (is_perm_In _ _ _ H1) in Ia. exact Ia.
      - rewrite map_map. apply list_nth_eq; [now rewrite map_length, seq_length|]. intros a Ha. rewrite map_length, seq_length in Ha.
        rewrite map_seq_at' by auto. rewrite app_nth2 by (fold n; lia). f_equal. fold n; lia. }
    assert (R2 : reshape (y1 ++ w1) j2 = Ok (mkT (y1 ++ w1) (fun i => entry j2 (unravel (shape j2) (ravel (y1 ++ w1) i))))).
    { unfold reshape. rewrite S2, Nat.eqb_refl. reflexivity. }
    rewrite R2. eexists. split; [reflexivity|]. split; [reflexivity|]. intros y w Hy Hw. cbn [entry]. rewrite S2, unravel_ravel by (now apply in_range_app).
    unfold j2, transpose. cbn [entry]. unfold ndim. rewrite S1, app_length. fold n.
    assert (Lyy : length y = n) by (rewrite (in_range_length _ _ Hy); auto). assert (Lww : length w = n) by (rewrite (in_range_length _ _ Hw); auto).
    replace (map (fun a => nth (index_of a (perm ++ map (fun i => (i + n)%nat) (seq 0 n))) (y ++ w) 0%nat) (seq 0 (n + n)))
      with (map (fun a => nth (index_of a perm) y 0%nat) (seq 0 n) ++ w).
    + rewrite V1; auto. rewrite H2 in Hy. now apply in_range_back.
    + rewrite seq_app, map_app. f_equal.
      * apply map_ext_in. intros a Ia. apply in_seq in Ia. destruct (transpose_rev_perm _ _ H1 a) as [Q1 Q2]; [lia|].
        rewrite index_of_app_in by (apply (is_perm_In n); auto; lia). rewrite app_nth1; auto. rewrite Lyy. exact Q1.
      * symmetry. apply list_nth_eq; [rewrite map_length, seq_length; auto|]. intros a Ha. rewrite map_length, seq_length in Ha.
        rewrite (nth_map_in _ _ _ _ 0%nat) by (rewrite seq_length; auto). rewrite seq_nth by auto. cbn [plus].
        rewrite index_of_app_out by (intros Q; apply (is_perm_In n) in Q; auto; lia). rewrite L1.
        replace (index_of (n + a) (map (fun i => (i + n)%nat) (seq 0 n))) with a.
        { rewrite app_nth2 by lia. f_equal. rewrite Lyy. lia. }
        symmetry. replace (n + a)%nat with (nth a (map (fun i => (i + n)%nat) (seq 0 n)) 0%nat) by (rewrite map_seq_at' by auto; lia).
        apply index_of_nth_nodup; [|now rewrite map_length, seq_length].
        apply FinFun.Injective_map_NoDup; [intros x z Q; lia|apply seq_NoDup].
  - split; auto.
  - cbn [structure_rule get_item nth_error bind]. unfold _transpose_s. replace (forallb (fun i => mem i perm) (seq 0 (length ys))) with true; auto.
    symmetry. apply forallb_forall. intros a Ia. apply in_seq in Ia. apply mem_iff, (is_perm_In _ _ _ Hperm). lia.
  - apply (NoDup_nth _ 0%nat). rewrite map_length, seq_length. intros i j Hi Hj E. rewrite !map_seq_at' in E by auto.
    destruct (Rv i) as [_ Q1]; [lia|]. destruct (Rv j) as [_ Q2]; [lia|]. congruence.
  - apply seq_NoDup.
  - now rewrite map_length.
  - intros a b Iab. apply in_combine_map in Iab. destruct Iab as [-> Ib]. apply in_seq in Ib. destruct (Rv b) as [Q1 Q2]; [lia|]. repeat split; [lia|lia|].
    rewrite Hys. rewrite (nth_map_in _ _ _ _ 0%nat) by lia. now rewrite Q2.
  - intros y v a b Hy Ev Iab. injection Ev as <-. apply in_combine_map in Iab. destruct Iab as [-> Ib]. apply in_seq in Ib. rewrite map_seq_at' by lia. reflexivity.
  - intros t P.
    assert (NA : NoDup (map (fun i => index_of i perm) (seq 0 (length ys)))).
    { apply (NoDup_nth _ 0%nat). rewrite map_length, seq_length. intros i j Hi Hj E. rewrite !map_seq_at' in E by auto.
      destruct (Rv i) as [_ Q1]; [lia|]. destruct (Rv j) as [_ Q2]; [lia|]. congruence. }
    assert (M : forall b, (b < length ws)%nat -> mem (index_of b perm) (map fst P) = t b /\ mem b (map snd P) = t b).
    { intros b Hb. apply pair_mem; auto; [apply seq_NoDup|]. apply in_combine_map. split; auto. apply in_seq. lia. }
    split.
    + split; [now rewrite trimmed_len|]. apply list_nth_eq; [rewrite trimmed_len, map_length; lia|]. rewrite trimmed_len. intros j Hj.
      rewrite trimmed_at by auto. rewrite (nth_map_in _ _ _ _ 0%nat) by lia. assert (Hb : (nth j perm 0 < length ws)%nat).
      { apply (is_perm_In _ _ _ Hperm). apply nth_In. lia. }
      rewrite trimmed_at by auto. destruct (M _ Hb) as [M1 M2]. rewrite index_of_nth_nodup in M1 by (auto; lia). rewrite M1, M2.
      destruct (t (nth j perm 0%nat)); auto. rewrite Hys. now rewrite (nth_map_in _ _ _ _ 0%nat) by lia.
    + intros y Hy. unfold transpose_src. cbn [option_map]. rewrite trimmed_len. apply some_eq. apply list_nth_eq; [rewrite zeroed_length, !map_length; auto|].
      rewrite map_length, seq_length. intros b Hb. rewrite map_seq_at', !zeroed_nth, map_seq_at' by auto. destruct (M b Hb) as [M1 M2]. now rewrite M1, M2.
Qed.
