(** Outputs that sum inputs: [reduce_sum] and [reduce_window_sum]. *)
From Coq Require Import Reals ZArith List Arith Lia Lra Bool Permutation.
From Verif Require Import Base Tensor Reshape Model_Net Model_Predict Model_Empirical Model_Structure Model_Aggregate Model_Structured Model_Lax Model_Rules
  Spec_Structure Spec_Structured Spec_Rules Proof_Linalg Proof_Tsum Proof_Einsum Proof_Structure Proof_Structured Proof_Structured2 Proof_Structured3 Proof_Structured4 Proof_Rules Proof_Rules2 Proof_Rules3 Proof_Rules4 Proof_Rules5 Proof_Rules6 Proof_Rules7 Proof_Rules8 Proof_Rules9.
From Verif Require Proof_BranchMask.
Import ListNotations.
Local Open Scope R_scope.

(** * Sums of gathers *)

Definition sums (K : list nat) (src : list nat -> list nat -> option (list nat)) (c : list nat -> list nat -> R) (y w : list nat) : R :=
  tsum K (fun k => gather (src k) (c k) y w).

Lemma sums_affine p idx xs ws ys K src c base :
  (forall k y v, in_range K k -> in_range ys y -> src k y = Some v -> in_range ws v) ->
  (forall t, shape t = ws -> exists o, lax_eval p (update xs idx t) = Ok o /\ shape o = ys /\
     forall y, in_range ys y -> entry o y = base y + tsum K (fun k => match src k y with Some v => c k y * entry t v | None => 0 end)) ->
  affine p idx xs ws ys (sums K src c).
Proof.
  intros R H. exists base. intros t Ht. destruct (H t Ht) as (o & E & S & V). exists o. repeat split; auto.
  intros y Hy. rewrite V by auto. f_equal. unfold sums.
  transitivity (tsum ws (fun w => tsum K (fun k => gather (src k) (c k) y w * entry t w))).
  - rewrite <- (tsum_swap K ws). apply tsum_ext. intros k Hk. unfold gather. destruct (src k y) as [v|] eqn:Ey.
    + symmetry. apply tsum_gather. eauto.
    + symmetry. apply tsum_zero. intros. ring.
  - apply tsum_ext. intros w _. now rewrite <- tsum_scale_r.
Qed.

Lemma sums_structure (P : list (nat * nat)) (zy : list nat) K src src' c c' y w :
  (forall k, in_range K k -> forall a b, In (a, b) P -> forall v, src k y = Some v -> nth b v 0%nat = nth a y 0%nat) ->
  (forall k, in_range K k -> forall v, src k y = Some v -> length v = length w) ->
  (forall k, in_range K k -> src' k (zeroed zy y) = option_map (zeroed (map snd P)) (src k y) /\ c' k (zeroed zy y) = c k y) ->
  sums K src c y w = if same_at P y w then sums K src' c' (zeroed zy y) (zeroed (map snd P) w) else 0.
Proof.
  intros HP HL HS. unfold sums.
  transitivity (tsum K (fun k => if same_at P y w then gather (src' k) (c' k) (zeroed zy y) (zeroed (map snd P) w) else 0)).
  - apply tsum_ext. intros k Hk. destruct (HS k Hk). apply gather_structure; eauto.
  - destruct (same_at P y w); auto. apply tsum_zero. auto.
Qed.

Section UnarySums.
  Variables (p : prim) (K : list nat -> list nat) (src : list nat -> list nat -> list nat -> option (list nat)) (valid : list nat -> list nat -> Prop).
  Hypothesis (Hp : not_reshape p).
  Notation JJ ws := (sums (K ws) (src ws) (fun _ _ => 1)).
  Hypothesis (Heval : forall ws ys, valid ws ys -> forall t, shape t = ws -> exists o, lax_eval p [t] = Ok o /\ shape o = ys /\
    forall y, in_range ys y -> entry o y = tsum (K ws) (fun k => match src ws k y with Some v => entry t v | None => 0 end)).
  Hypothesis (Hsrc : forall ws ys k y v, valid ws ys -> in_range (K ws) k -> in_range ys y -> src ws k y = Some v -> in_range ws v).
  Hypothesis (Hrule : forall ws ys, valid ws ys -> rule_ok p 0 [Undefined ws] ws ys (JJ ws)).

  Lemma unary_sums_affine ws ys x : valid ws ys -> affine p 0 [x] ws ys (JJ ws).
  Proof.
    intros V. apply (sums_affine p 0 [x] ws ys (K ws) (src ws) (fun _ _ => 1) (fun _ => 0)). { intros; eapply Hsrc; eauto. }
    intros t Ht. destruct (Heval ws ys V t Ht) as (o & E & S & F). exists o. repeat split; auto. intros y Hy. rewrite F by auto. rewrite Rplus_0_l. apply tsum_ext.
    intros k Hk. destruct (src ws k y); ring.
  Qed.

  Variables (ws ys A B : list nat).
  Hypothesis (V : valid ws ys).
  Hypothesis (Hs : structure_rule p 0 [ws] ys = Ok (trace_only A B [0%nat])).
  Hypothesis (NA : NoDup A) (NB : NoDup B) (L : length A = length B).
  Hypothesis (HP : forall a b, In (a, b) (combine A B) -> (a < length ys)%nat /\ (b < length ws)%nat /\ nth a ys 0%nat = nth b ws 0%nat).
  Hypothesis (HQ : forall k y v a b, in_range (K ws) k -> in_range ys y -> src ws k y = Some v -> In (a, b) (combine A B) -> nth b v 0%nat = nth a y 0%nat).
  Hypothesis (HT : forall t : nat -> bool, let P := filter (fun x => t (snd x)) (combine A B) in
    valid (trimmed (map snd P) ws) (trimmed (map fst P) ys) /\ K (trimmed (map snd P) ws) = K ws /\
    forall k y, in_range (K ws) k -> in_range ys y -> src (trimmed (map snd P) ws) k (zeroed (map fst P) y) = option_map (zeroed (map snd P)) (src ws k y)).

  Lemma unary_sums_sound c : common ws c -> sound p 0 [Undefined ws] ws ys c (JJ ws).
  Proof.
    intros Hc [|] jr.
    - destruct (HT (fun i => mem i (in_trace c))) as [V' [EK S']].
      set (P := filter (fun x => mem (snd x) (in_trace c)) (combine A B)) in *.
      set (A' := map fst P) in *. set (B' := map snd P) in *.
      set (s' := restrict (fun i => mem i (in_trace c)) (fun i => mem i (out_diagonal c)) (fun i => mem i (out_broadcast c)) (trace_only A B [0%nat])).
      assert (E1 : out_trace s' = A') by reflexivity. assert (E2 : in_trace s' = B') by reflexivity. assert (E3 : out_broadcast s' = []) by reflexivity.
      assert (E4 : use_shape p ys ws = ys) by (now apply use_shape_id).
      destruct (no_diagonal p 0 [Undefined ws] ws ys c (trace_only A B [0%nat]) (JJ ws) eq_refl Hc Hs eq_refl eq_refl
        ltac:(rewrite E4; now apply fits_trace) [Undefined (trimmed B' ws)] (Undefined (trimmed B' ws)) (trimmed A' ys)
        (JJ (trimmed B' ws)) (JJ (trimmed B' ws)) jr) as (r & E & F & G).
      + apply trim_one.
      + reflexivity.
      + reflexivity.
      + rewrite trim_eqn_id by auto. now apply unary_sums_affine.
      + fold s'. now rewrite E1, E3, E4, app_nil_r.
      + fold s'. rewrite E1, E3, E4, app_nil_r. intros y w Hy Hw. now rewrite unravel_ravel.
      + fold s'. rewrite trim_eqn_id by auto. rewrite E1, E2, E3, E4, app_nil_r. now apply Hrule.
      + intros y w Hy Hw. rewrite E4 in Hy. rewrite restrict_pairs. fold s'. rewrite E1, E2, E3, app_nil_r. rewrite EK.
        apply sums_structure.
        * intros k Hk a b I v Ev. apply filter_In in I. eapply HQ; eauto. apply I.
        * intros k Hk v Ev. apply in_range_length in Hw. rewrite Hw. apply in_range_length. eapply Hsrc; eauto.
        * intros k Hk. split; [now apply S'|reflexivity].
      + exists r, s'. split; [exact E|]. split; [exact F|exact G].
    - edestruct (no_rules p 0 [Undefined ws] ws ys c (JJ ws) (JJ ws) jr) as (r & E & F & G); auto.
      + cbn [map]. now apply unary_sums_affine.
      + now rewrite use_shape_id.
      + intros y w Hy Hw. rewrite use_shape_id in Hy |- * by auto. now rewrite unravel_ravel.
      + rewrite use_shape_id by auto. now apply Hrule.
      + exists r, empty_structure. auto.
  Qed.
End UnarySums.

(** * Merging two lists of coordinates *)

Definition merged (axes : list nat) (n : nat) (k y : list nat) : list nat :=
  map (fun a => if mem a axes then nth (index_of a axes) k 0%nat else nth (index_of a (kept axes n)) y 0%nat) (seq 0 n).
Lemma merged_eq axes n k y w : NoDup axes -> (forall a, In a axes -> (a < n)%nat) -> length k = length axes -> length y = length (kept axes n) -> length w = n ->
  merged axes n k y = w <-> k = map (fun a => nth a w 0%nat) axes /\ y = map (fun a => nth a w 0%nat) (kept axes n).
Proof.
  intros N B Lk Ly Lw. split.
  - intros <-. unfold merged. split.
    + apply list_nth_eq; [now rewrite map_length|]. intros j Hj. rewrite (nth_map_in _ _ _ _ 0%nat) by lia. assert (I : In (nth j axes 0%nat) axes) by (apply nth_In; lia).
      rewrite map_seq_at' by auto. rewrite (proj2 (mem_iff _ _) I). now rewrite index_of_nth_nodup by (auto; lia).
    + apply list_nth_eq; [now rewrite map_length|]. intros j Hj. rewrite (nth_map_in _ _ _ _ 0%nat) by lia. destruct (kept_at axes n j ltac:(lia)) as [K1 K2].
      rewrite map_seq_at' by auto. rewrite (proj2 (mem_false _ _) K2). rewrite index_of_nth_nodup by (auto using kept_NoDup; lia). reflexivity.
  - intros [-> ->]. apply list_nth_eq; [unfold merged; now rewrite map_length, seq_length|]. unfold merged. rewrite map_length, seq_length. intros a Ha. rewrite map_seq_at' by auto.
    destruct (mem a axes) eqn:M.
    + apply mem_iff in M. destruct (index_of_In_lt _ _ M) as [L E]. rewrite (nth_map_in _ _ _ _ 0%nat) by auto. now rewrite E.
    + apply mem_false in M. destruct (kept_index axes n a Ha M) as [L E]. rewrite (nth_map_in _ _ _ _ 0%nat) by auto. now rewrite E.
Qed.

Lemma merged_range axes ws k y : (forall a, In a axes -> (a < length ws)%nat) ->
  in_range (map (fun a => nth a ws 0%nat) axes) k -> in_range (map (fun a => nth a ws 0%nat) (kept axes (length ws))) y -> in_range ws (merged axes (length ws) k y).
Proof.
  intros B Hk Hy. apply in_range_nth. unfold merged. rewrite map_length, seq_length. split; auto. intros a Ha. rewrite map_seq_at' by auto.
  apply in_range_nth in Hk, Hy. destruct Hk as [_ Hk], Hy as [_ Hy]. rewrite map_length in Hk, Hy. destruct (mem a axes) eqn:M.
  - apply mem_iff in M. destruct (index_of_In_lt _ _ M) as [L E]. specialize (Hk _ L). rewrite (nth_map_in _ _ _ _ 0%nat) in Hk by auto. now rewrite E in Hk.
  - apply mem_false in M. destruct (kept_index axes (length ws) a Ha M) as [L E]. specialize (Hy _ L). rewrite (nth_map_in _ _ _ _ 0%nat) in Hy by auto. now rewrite E in Hy.
Qed.

(** Summing over the merged coordinates finds at most one. *)
Lemma tsum_merged axes ws y w (f : list nat -> R) : NoDup axes -> (forall a, In a axes -> (a < length ws)%nat) ->
  in_range ws w -> length y = length (kept axes (length ws)) ->
  tsum (map (fun a => nth a ws 0%nat) axes) (fun k => if list_eq_dec Nat.eq_dec (merged axes (length ws) k y) w then f k else 0)
  = if list_eq_dec Nat.eq_dec y (map (fun a => nth a w 0%nat) (kept axes (length ws))) then f (map (fun a => nth a w 0%nat) axes) else 0.
Proof.
  intros N B Hw Ly. pose proof (in_range_length _ _ Hw) as Lw.
  assert (M : forall k, in_range (map (fun a => nth a ws 0%nat) axes) k -> merged axes (length ws) k y = w <-> k = map (fun a => nth a w 0%nat) axes /\ y = map (fun a => nth a w 0%nat) (kept axes (length ws))).
  { intros k Hk. apply merged_eq; auto. rewrite (in_range_length _ _ Hk). apply map_length. }
  destruct (list_eq_dec Nat.eq_dec y (map (fun a => nth a w 0%nat) (kept axes (length ws)))) as [E|E].
  - assert (Hr : in_range (map (fun a => nth a ws 0%nat) axes) (map (fun a => nth a w 0%nat) axes)).
    { apply in_range_nth. rewrite !map_length. split; auto. intros j Hj. rewrite !(nth_map_in _ _ _ _ 0%nat) by auto. apply in_range_nth in Hw. apply Hw, B, nth_In, Hj. }
    rewrite <- (tsum_one_hot _ _ f Hr). apply tsum_ext. intros k Hk. specialize (M k Hk).
    destruct (list_eq_dec Nat.eq_dec (merged axes (length ws) k y) w) as [D|D], (list_eq_dec Nat.eq_dec k (map (fun a => nth a w 0%nat) axes)) as [D'|D']; try ring; exfalso; tauto.
  - apply tsum_zero. intros k Hk. specialize (M k Hk). destruct (list_eq_dec Nat.eq_dec (merged axes (length ws) k y) w) as [D|D]; auto. exfalso. tauto.
Qed.

(** * [reduce_sum] *)

Definition reduce_valid (axes ws ys : list nat) : Prop := axes_ok axes (length ws) = true /\ ys = map (fun a => nth a ws 0%nat) (kept axes (length ws)).
Definition reduce_dims (axes ws : list nat) : list nat := map (fun a => nth a ws 0%nat) axes.
Definition reduce_src (axes ws k y : list nat) : option (list nat) := Some (merged axes (length ws) k y).

Lemma kept_length axes n : NoDup axes -> (forall a, In a axes -> (a < n)%nat) -> (length (kept axes n) + length axes = n)%nat.
Proof.
  intros N B. assert (P : Permutation (kept axes n ++ axes) (seq 0 n)).
  { apply NoDup_Permutation; [apply NoDup_app_intro; auto using kept_NoDup|apply seq_NoDup|].
    - intros a I J. apply kept_In in I. tauto.
    - intros a. rewrite in_app_iff, kept_In, in_seq. split; [intros [I|I]; [lia|apply B in I; lia]|]. intros I. destruct (in_dec Nat.eq_dec a axes); [now right|left; split; [lia|auto]]. }
  apply Permutation_length in P. rewrite app_length, seq_length in P. auto.
Qed.
Lemma filter_map_comm {A B} (f : A -> B) p l : filter p (map f l) = map f (filter (fun a => p (f a)) l).
Proof. induction l as [|a l IH]; cbn; auto. rewrite IH. now destruct (p (f a)). Qed.
Lemma kept_shift axes m n : kept (map (fun a => (a + m)%nat) axes) (m + n) = seq 0 m ++ map (fun a => (a + m)%nat) (kept axes n).
Proof.
  unfold kept. rewrite seq_app, filter_app. f_equal.
  - transitivity (filter (fun _ : nat => true) (seq 0 m)).
    + apply filter_ext_in. intros a I. apply in_seq in I. apply negb_true_iff, mem_false. intros J. apply in_map_iff in J. destruct J as (b & E & _). lia.
    + generalize (seq 0 m). intros l. induction l as [|x l IH]; cbn; congruence.
  - assert (E : seq (0 + m) n = map (fun a => (a + m)%nat) (seq 0 n)). { cbn [plus]. rewrite <- (Nat.add_0_r m) at 1. generalize 0%nat. induction n as [|n IH]; intros k; cbn; auto. f_equal; [lia|]. rewrite <- IH. f_equal. lia. }
    rewrite E, filter_map_comm. f_equal. apply filter_ext. intros a. f_equal. apply bool_eq_iff. rewrite !mem_iff. rewrite in_map_iff. split; [intros (b & Eb & I)|intros I; exists a; auto].
    now replace a with b by lia.
Qed.

Lemma reduce_rule axes ws ys : reduce_valid axes ws ys -> rule_ok (ReduceSum axes) 0 [Undefined ws] ws ys (sums (reduce_dims axes ws) (reduce_src axes ws) (fun _ _ => 1)).
Proof.
  intros (H1 & H2). pose proof (axes_ok_NoDup _ _ H1) as N. pose proof (axes_ok_lt _ _ H1) as B. unfold rule_ok. cbn [jacobian_rule vshape nth]. unfold _reduce_sum_j.
  destruct (eye_square ys) as (j & Ej & Sj & Fj). rewrite Ej. cbn [bind]. set (m := length ys). set (n := length ws) in *. assert (Lm : m = length (kept axes n)) by (unfold m; now rewrite H2, map_length).
  pose proof (kept_length axes n N B) as LK. unfold jnp_expand_dims. set (ax := map (fun a => (a + m)%nat) axes).
  assert (EN : (ndim j + length ax = m + n)%nat). { unfold ndim, ax. rewrite Sj, app_length, map_length. fold m. lia. }
  rewrite EN. assert (OK : axes_ok ax (m + n) = true).
  { unfold axes_ok. apply andb_true_intro. split.
    - apply Tensor.nodupb_NoDup. apply FinFun.Injective_map_NoDup; auto. intros x z. lia.
    - apply forallb_forall. intros a I. apply in_map_iff in I. destruct I as (b & <- & I). apply B in I. apply Nat.ltb_lt. lia. }
  rewrite OK. cbn [bind]. assert (EK : kept ax (m + n) = seq 0 m ++ map (fun a => (a + m)%nat) (kept axes n)) by apply kept_shift. rewrite EK. set (KK := kept axes n) in *. set (M := seq 0 m ++ map (fun a => (a + m)%nat) KK).
  set (e := mkT _ _).
  assert (IM : forall a, (a < m)%nat -> index_of a M = a). { intros a Ha. unfold M. rewrite index_of_app_in by (apply in_seq; lia). transitivity (index_of (nth a (seq 0 m) 0%nat) (seq 0 m)); [now rewrite seq_nth|]. apply index_of_nth_nodup; [apply seq_NoDup|rewrite seq_length; lia]. }
  assert (IK : forall b, (b < n)%nat -> ~ In b axes -> index_of (m + b) M = (m + index_of b KK)%nat).
  { intros b Hb Ib. unfold M. destruct (kept_index axes n b Hb Ib) as [Q1 Q2]. fold KK in Q1, Q2. rewrite index_of_app_out by (rewrite in_seq; lia). rewrite seq_length. f_equal.
    transitivity (index_of (nth (index_of b KK) (map (fun a => (a + m)%nat) KK) 0%nat) (map (fun a => (a + m)%nat) KK)).
    - f_equal. rewrite (nth_map_in _ _ _ _ 0%nat) by auto. rewrite Q2. lia.
    - apply index_of_nth_nodup; [|now rewrite map_length]. apply FinFun.Injective_map_NoDup; [intros x z; lia|apply kept_NoDup]. }
  assert (Se : length (shape e) = length (ys ++ ws)). { unfold e. cbn [shape]. rewrite map_length, seq_length, app_length. reflexivity. }
  assert (Mf : forall a, (a < m)%nat -> mem a ax = false). { intros a Ha. apply mem_false. intros I. apply in_map_iff in I. destruct I as (b & E & _). lia. }
  assert (Mb : forall b, (b < n)%nat -> mem (m + b) ax = mem b axes).
  { intros b Hb. apply bool_eq_iff. rewrite !mem_iff. unfold ax. rewrite in_map_iff. split; [intros (x & E & I); now replace b with x by lia|intros I; exists b; split; [lia|auto]]. }
  assert (Se1 : forall a, (a < m)%nat -> nth a (shape e) 0%nat = nth a ys 0%nat).
  { intros a Ha. unfold e. cbn [shape]. rewrite map_seq_at' by lia. rewrite Mf, IM, Sj by auto. now rewrite app_nth1. }
  assert (Se2 : forall b, (b < n)%nat -> nth (m + b) (shape e) 0%nat = if mem b axes then 1%nat else nth b ws 0%nat).
  { intros b Hb. unfold e. cbn [shape]. rewrite map_seq_at' by lia. rewrite Mb by auto. destruct (mem b axes) eqn:Q; auto. apply mem_false in Q. rewrite IK, Sj by auto.
    rewrite app_nth2 by (unfold m; lia). fold m. replace (m + index_of b KK - m)%nat with (index_of b KK) by lia. destruct (kept_index axes n b Hb Q) as [Q1 Q2]. rewrite H2. fold KK. rewrite (nth_map_in _ _ _ _ 0%nat) by auto. fold KK in Q2. now rewrite Q2. }
  destruct (broadcast_to_same e (ys ++ ws)) as (o & Eo & So & Fo); auto.
  { rewrite app_length. fold m n. intros a Ha. destruct (Nat.lt_ge_cases a m) as [Q|Q].
    - left. rewrite Se1 by auto. now rewrite app_nth1.
    - replace a with (m + (a - m))%nat by lia. rewrite Se2 by lia. rewrite app_nth2 by (unfold m; lia). fold m. replace (m + (a - m) - m)%nat with (a - m)%nat by lia. destruct (mem (a - m) axes); auto. }
  rewrite Eo. exists o. split; auto. split; auto. intros y w Hy Hw. rewrite Fo. unfold e at 1. cbn [entry]. pose proof (in_range_length _ _ Hy) as Ly. pose proof (in_range_length _ _ Hw) as Lw. fold m in Ly. fold n in Lw.
  assert (EY : map (fun a => nth a (clip (shape e) (y ++ w)) 0%nat) M = y ++ map (fun a => nth a w 0%nat) KK).
  { unfold M. rewrite map_app. f_equal.
    - apply list_nth_eq; [rewrite map_length, seq_length; lia|]. rewrite map_length, seq_length. intros a Ha. rewrite map_seq_at' by auto.
      rewrite clip_nth by (rewrite ?Se, ?app_length; fold m n; lia). rewrite Se1, app_nth1 by lia. apply in_range_nth in Hy. destruct Hy as [_ Hy]. specialize (Hy a Ha). destruct (Nat.eqb_spec (nth a ys 0%nat) 1); lia.
    - rewrite map_map. apply map_ext_in. intros b I. apply kept_In in I. destruct I as [I1 I2]. rewrite (Nat.add_comm b m). rewrite clip_nth by (rewrite ?Se, ?app_length; fold m n; lia).
      rewrite Se2 by auto. rewrite (proj2 (mem_false _ _) I2). rewrite app_nth2 by lia. replace (m + b - length y)%nat with b by lia.
      apply in_range_nth in Hw. destruct Hw as [_ Hw]. specialize (Hw b I1). destruct (Nat.eqb_spec (nth b ws 0%nat) 1); lia. }
  rewrite EY. assert (RK : in_range ys (map (fun a => nth a w 0%nat) KK)).
  { apply in_range_nth. rewrite map_length. split; [fold m; lia|]. fold m. rewrite Lm. intros a Ha. rewrite H2. fold KK. rewrite !(nth_map_in _ _ _ _ 0%nat) by auto. apply in_range_nth in Hw. apply Hw.
    now apply kept_at. }
  rewrite Fj by auto. unfold sums, reduce_dims, reduce_src, gather. rewrite (tsum_merged axes ws y w (fun _ => 1)); auto. change (length y = length KK). lia.
Qed.

Lemma reduce_sum_sound axes ws ys c : reduce_valid axes ws ys -> common ws c ->
  sound (ReduceSum axes) 0 [Undefined ws] ws ys c (sums (reduce_dims axes ws) (reduce_src axes ws) (fun _ _ => 1)).
Proof.
  intros V Hc. assert (V0 := V). destruct V as (H1 & H2). pose proof (axes_ok_NoDup _ _ H1) as N. pose proof (axes_ok_lt _ _ H1) as B.
  assert (Ly : length ys = length (kept axes (length ws))) by (now rewrite H2, map_length).
  apply (unary_sums_sound (ReduceSum axes) (reduce_dims axes) (reduce_src axes) (reduce_valid axes)) with (A := seq 0 (length ys)) (B := kept axes (length ws)); auto.
  - exact I.
  - intros w1 y1 (G1 & G2) t Ht. cbn [lax_eval]. unfold lax_reduce_sum, ndim. rewrite Ht, G1. eexists. split; [reflexivity|]. cbn. split; auto.
  - intros w1 y1 k y v (G1 & G2) Hk Hy Ev. injection Ev as <-. apply merged_range; auto; [now apply axes_ok_lt|now rewrite <- G2].
  - intros w1 y1 G. now apply reduce_rule.
  - apply seq_NoDup.
  - apply kept_NoDup.
  - now rewrite seq_length.
  - intros a b Iab. rewrite Ly in Iab. apply in_combine_seq in Iab. rewrite Nat.sub_0_r in Iab. destruct Iab as [La <-]. destruct (kept_at axes (length ws) a) as [K1 K2]; [lia|].
    repeat split; [lia|auto|]. rewrite H2. rewrite (nth_map_in _ _ _ _ 0%nat) by lia. auto.
  - intros k y v a b Hk Hy Ev Iab. rewrite Ly in Iab. apply in_combine_seq in Iab. rewrite Nat.sub_0_r in Iab. destruct Iab as [La <-]. destruct (kept_at axes (length ws) a) as [K1 K2]; [lia|].
    injection Ev as <-. unfold merged. rewrite map_seq_at' by auto. rewrite (proj2 (mem_false _ _) K2). rewrite index_of_nth_nodup by (auto using kept_NoDup; lia). auto.
  - intros t P.
    assert (M : forall a, (a < length (kept axes (length ws)))%nat -> mem a (map fst P) = t (nth a (kept axes (length ws)) 0%nat) /\
       mem (nth a (kept axes (length ws)) 0%nat) (map snd P) = t (nth a (kept axes (length ws)) 0%nat)).
    { intros a Ha. apply pair_mem; [apply seq_NoDup|apply kept_NoDup|]. rewrite Ly. apply in_combine_seq. rewrite Nat.sub_0_r. split; [lia|auto]. }
    assert (MA : forall a, In a axes -> mem a (map snd P) = false). { intros a Ia. apply pair_mem_out_r. rewrite kept_In. tauto. }
    split; [|split].
    + split; [now rewrite trimmed_len|].
      rewrite trimmed_len. apply list_nth_eq; [rewrite trimmed_len, map_length; auto|]. rewrite trimmed_len. intros j Hj. rewrite trimmed_at by auto. rewrite Ly in Hj.
      rewrite (nth_map_in _ _ _ _ 0%nat) by auto. destruct (kept_at _ _ _ Hj) as [K1 K2]. rewrite trimmed_at by auto. destruct (M j Hj) as [M1 M2]. rewrite M1, M2.
      destruct (t (nth j (kept axes (length ws)) 0%nat)); auto. rewrite H2. now rewrite (nth_map_in _ _ _ _ 0%nat) by auto.
    + unfold reduce_dims. apply map_ext_in. intros a Ia. rewrite trimmed_at by auto. now rewrite MA.
    + intros k y Hk Hy. unfold reduce_src, merged. cbn [option_map]. rewrite trimmed_len. apply some_eq. apply list_nth_eq; [rewrite zeroed_length, !map_length; auto|].
      rewrite map_length, seq_length. intros b Hb. rewrite zeroed_nth, !map_seq_at' by auto. destruct (mem b axes) eqn:Mb; [apply mem_iff in Mb; now rewrite MA|].
      apply mem_false in Mb. destruct (kept_index _ _ _ Hb Mb) as [K1 K2]. rewrite zeroed_nth. destruct (M _ K1) as [M1 M2]. rewrite K2 in M1, M2. now rewrite M1, M2.
Qed.

(** * [reduce_window_sum] *)

Notation win0 := (mkWindow 1 1 0 0 1 1).
Definition window_valid (cs : list window) (ws ys : list nat) : Prop :=
  length cs = length ws /\ forallb (fun c => (0 <? w_size c)%nat && (0 <? w_stride c)%nat && (0 <? w_base_dilation c)%nat && (0 <? w_dilation c)%nat) cs = true /\
  ys = map (fun a => window_out (nth a cs win0) (nth a ws 0%nat)) (seq 0 (length ws)).
Definition window_src (cs : list window) (ws k y : list nat) : option (list nat) :=
  if forallb (fun a => window_hit (nth a cs win0) (nth a ws 0%nat) (nth a y 0%nat) (nth a k 0%nat)) (seq 0 (length ws))
  then Some (map (fun a => window_pos (nth a cs win0) (nth a y 0%nat) (nth a k 0%nat)) (seq 0 (length ws))) else None.

Lemma window_trivial_spec c : window_trivial c = true -> c = win0.
Proof. destruct c. unfold window_trivial. cbn. rewrite !andb_true_iff, !Nat.eqb_eq. intuition congruence. Qed.
Lemma window_out0 n : window_out win0 n = n.
Proof. unfold window_out. cbn [w_size w_stride w_lo w_hi w_base_dilation w_dilation]. destruct n; [reflexivity|]. rewrite Nat.div_1_r. cbn. destruct (n * 1 + 1 + 0 <=? 0)%nat eqn:Q; [apply Nat.leb_le in Q|]; lia. Qed.
Lemma window_hit0 n i : window_hit win0 n i 0 = (i <? n)%nat.
Proof. unfold window_hit, window_at. cbn [w_size w_stride w_lo w_hi w_base_dilation w_dilation]. rewrite Nat.mod_1_r, Nat.div_1_r. replace (i * 1 + 0 * 1 - 0)%nat with i by lia. reflexivity. Qed.
Lemma window_pos0 i : window_pos win0 i 0 = i.
Proof. unfold window_pos, window_at. cbn [w_size w_stride w_lo w_hi w_base_dilation w_dilation]. rewrite Nat.div_1_r. lia. Qed.
Lemma window_trace_filter : forall cs i, window_trace i cs (length cs) = Ok (filter (fun a => window_trivial (nth (a - i) cs win0)) (seq i (length cs))).
Proof.
  induction cs as [|c cs IH]; intros i; auto. cbn [length window_trace]. rewrite IH. cbn [rmap seq filter]. rewrite Nat.sub_diag. change (nth 0 (c :: cs) win0) with c.
  assert (E : filter (fun a => window_trivial (nth (a - S i) cs win0)) (seq (S i) (length cs)) = filter (fun a => window_trivial (nth (a - i) (c :: cs) win0)) (seq (S i) (length cs))).
  { apply filter_ext_in. intros a I. apply in_seq in I. replace (a - i)%nat with (S (a - S i)) by lia. reflexivity. }
  rewrite <- E. now destruct (window_trivial c).
Qed.

Lemma if_some {A} (b : bool) (x : A) (f : A -> R) : (if b then f x else 0) = match (if b then Some x else None) with Some v => f v | None => 0 end.
Proof. now destruct b. Qed.

Lemma reduce_window_sum_sound cs ws ys c : window_valid cs ws ys -> common ws c ->
  sound (ReduceWindowSum cs) 0 [Undefined ws] ws ys c (sums (map w_size cs) (window_src cs ws) (fun _ _ => 1)).
Proof.
  intros V Hc. assert (V0 := V). destruct V as (L & B & E). set (n := length ws) in *. assert (Ly : length ys = n) by (rewrite E, map_length, seq_length; auto).
  set (K := filter (fun a => window_trivial (nth a cs win0)) (seq 0 n)).
  assert (KI : forall a, In a K -> (a < n)%nat /\ nth a cs win0 = win0).
  { intros a I. apply filter_In in I. destruct I as [I1 I2]. apply in_seq in I1. split; [lia|]. now apply window_trivial_spec. }
  assert (KS : forall a, In a K -> nth a ys 0%nat = nth a ws 0%nat).
  { intros a I. destruct (KI a I) as [I1 I2]. rewrite E, map_seq_at' by auto. now rewrite I2, window_out0. }
  assert (KZ : forall a k, In a K -> in_range (map w_size cs) k -> nth a k 0%nat = 0%nat).
  { intros a k I Hk. destruct (KI a I) as [I1 I2]. apply in_range_nth in Hk. destruct Hk as [_ Hk]. rewrite map_length in Hk. specialize (Hk a ltac:(lia)).
    rewrite (nth_map_in w_size cs a 0%nat win0) in Hk by lia. rewrite I2 in Hk. cbn in Hk. lia. }
  assert (KN : NoDup K) by (apply NoDup_filter, seq_NoDup).
  apply (unary_sums_sound (ReduceWindowSum cs) (fun _ => map w_size cs) (window_src cs) (window_valid cs)) with (A := K) (B := K); auto.
  - exact I.
  - intros w1 y1 (G1 & G2 & G3) t Ht. cbn [lax_eval]. unfold lax_reduce_window_sum, ndim. rewrite Ht, G1, Nat.eqb_refl, G2. cbn [andb]. eexists. split; [reflexivity|]. cbn [shape entry]. split.
    + rewrite (combine_map_seq _ win0 0%nat) by auto. rewrite G1. symmetry. exact G3.
    + intros y Hy. apply tsum_ext. intros k Hk. unfold window_src. apply if_some.
  - intros w1 y1 k y v (G1 & G2 & G3) Hk Hy. unfold window_src. match goal with |- context [forallb ?f ?l] => destruct (forallb f l) eqn:F end; [|easy]. intros Ev. injection Ev as <-. rewrite forallb_forall in F.
    apply in_range_nth. rewrite map_length, seq_length. split; auto. intros a Ha. rewrite map_seq_at' by auto. specialize (F a ltac:(apply in_seq; lia)).
    unfold window_hit in F. rewrite !andb_true_iff, Nat.ltb_lt in F. apply F.
  - intros w1 y1 _. exact I.
  - cbn [structure_rule map vshape get_item nth_error bind]. unfold _reduce_window_sum_s. rewrite Ly. rewrite <- L, window_trace_filter. cbn [rmap]. rewrite L. unfold K.
    replace (filter (fun a => window_trivial (nth (a - 0) cs win0)) (seq 0 n)) with (filter (fun a => window_trivial (nth a cs win0)) (seq 0 n)); auto.
    apply filter_ext. intros a. now rewrite Nat.sub_0_r.
  - intros a b I. apply in_combine_same in I. destruct I as [<- I]. destruct (KI a I). repeat split; [lia|auto|]. now apply KS.
  - intros k y u a b Hk Hy Eu I. apply in_combine_same in I. destruct I as [<- I]. destruct (KI a I) as [I1 I2]. unfold window_src in Eu. match type of Eu with context [forallb ?f ?l] => destruct (forallb f l) end; [|easy]. injection Eu as <-.
    fold n. rewrite map_seq_at' by auto. rewrite I2, (KZ a k) by auto. apply window_pos0.
  - intros t P. assert (EP : map fst P = map snd P). { unfold P. generalize K. intros l. induction l as [|x l IH]; cbn; auto. destruct (t x); cbn; congruence. }
    rewrite EP. set (Q := map snd P).
    assert (QK : forall a, mem a Q = true -> In a K). { intros a I. apply mem_iff in I. unfold Q in I. apply in_map_iff in I. destruct I as ((x & z) & <- & I). apply filter_In in I. destruct I as [I _]. now apply in_combine_r in I. }
    split; [|split; auto].
    { split; [now rewrite trimmed_len|]. rewrite trimmed_len. fold n. split; auto.
      apply list_nth_eq; [rewrite trimmed_len, map_length, seq_length; auto|]. rewrite trimmed_len, Ly. intros a Ha. rewrite map_seq_at' by auto. rewrite !trimmed_at by lia.
      destruct (mem a Q) eqn:M; [|rewrite E; now rewrite map_seq_at']. apply QK in M. destruct (KI a M) as [_ ->]. now rewrite window_out0. }
    intros k y Hk Hy. unfold window_src. rewrite trimmed_len. fold n.
    replace (forallb (fun a => window_hit (nth a cs win0) (nth a (trimmed Q ws) 0%nat) (nth a (zeroed Q y) 0%nat) (nth a k 0%nat)) (seq 0 n))
      with (forallb (fun a => window_hit (nth a cs win0) (nth a ws 0%nat) (nth a y 0%nat) (nth a k 0%nat)) (seq 0 n)).
    2:{ apply forallb_ext_in. intros a I. apply in_seq in I. rewrite trimmed_at by (fold n; lia). rewrite zeroed_nth. destruct (mem a Q) eqn:M; auto. apply QK in M.
      pose proof (KS a M) as KSa. rewrite (KZ a k) by auto. destruct (KI a M) as [M1 ->]. rewrite !window_hit0. apply in_range_nth in Hy. destruct Hy as [_ Hy]. specialize (Hy a ltac:(lia)). rewrite KSa in Hy.
      cbn. now apply Nat.ltb_lt. }
    match goal with |- context [forallb ?f ?l] => destruct (forallb f l) end; auto. cbn [option_map]. apply some_eq. apply list_nth_eq; [now rewrite zeroed_length, !map_length|]. rewrite map_length, seq_length. intros a Ha.
    rewrite zeroed_nth, !map_seq_at' by auto. rewrite zeroed_nth. destruct (mem a Q) eqn:M; auto. apply QK in M. rewrite (KZ a k) by auto. destruct (KI a M) as [_ ->]. apply window_pos0.
Qed.
