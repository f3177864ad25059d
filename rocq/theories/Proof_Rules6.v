(** [broadcast_in_dim] and [reshape]. *)
From Coq Require Import Reals ZArith List Arith Lia Lra Bool Permutation.
From Verif Require Import Base Tensor Reshape Model_Net Model_Predict Model_Empirical Model_Structure Model_Aggregate Model_Structured Model_Lax Model_Rules
  Spec_Structure Spec_Structured Spec_Rules Proof_Linalg Proof_Tsum Proof_Einsum Proof_Structure Proof_Structured Proof_Structured2 Proof_Structured3 Proof_Structured4 Proof_Rules Proof_Rules2 Proof_Rules3 Proof_Rules4 Proof_Rules5.
Import ListNotations.
Local Open Scope R_scope.

(** * [reshape], in the coordinates of the input *)

Lemma reshape_sound ns ws ys c : size ns = size ws -> ys = ns -> common ws c ->
  sound (ReshapeTo ns) 0 [Undefined ws] ws ys c (gather (fun y => Some y) (fun _ => 1)).
Proof.
  intros Hsz -> Hc.
  assert (Hid : forall w, rule_ok (ReshapeTo w) 0 [Undefined w] w w (gather (fun y => Some y) (fun _ => 1))).
  { intros w. unfold rule_ok. cbn [jacobian_rule vshape nth]. unfold _reshape_j. destruct (eye_like_ok w w eq_refl) as (j & E & S & F). rewrite E. cbn [bind].
    destruct (reshape_ok (w ++ w) j) as (j1 & E1); [now rewrite S|]. rewrite E1. cbn [bind]. assert (S1 := reshape_shape _ _ _ E1).
    destruct (reshape_ok (w ++ w) j1) as (j2 & E2); [now rewrite S1|]. rewrite E2. exists j2. split; auto. split; [eapply reshape_shape; eauto|].
    intros y v Hy Hv. assert (R : in_range (w ++ w) (y ++ v)) by (now apply in_range_app).
    rewrite (reshape_entry _ _ _ (y ++ v) (y ++ v) E2) by (rewrite ?S1; auto). rewrite (reshape_entry _ _ _ (y ++ v) (y ++ v) E1) by (rewrite ?S; auto).
    rewrite F by auto. unfold gather. now apply ravel_delta. }
  assert (Haff : forall w ns, size ns = size w -> affine (ReshapeTo ns) 0 [zeros w] w ns (gather (fun y => Some (unravel w (ravel ns y))) (fun _ => 1))).
  { intros w n E. apply (gather_affine _ 0 _ w n (fun y => Some (unravel w (ravel n y))) (fun _ => 1) (fun _ => 0)).
    - intros y v Hy Ev. injection Ev as <-. apply unravel_in_range. rewrite <- E. now apply ravel_lt.
    - intros t Ht. cbn [lax_eval update]. destruct (reshape_ok n t) as (o & Eo); [rewrite Ht; auto|]. exists o. split; [exact Eo|]. split; [eapply reshape_shape; eauto|].
      intros y Hy. rewrite (reshape_entry _ _ _ y (unravel w (ravel n y)) Eo); [ring| |].
      + rewrite Ht. apply unravel_in_range. rewrite <- E. now apply ravel_lt.
      + rewrite Ht. rewrite ravel_unravel; auto. rewrite <- E. now apply ravel_lt. }
  intros [|] jr.
  - set (A := seq 0 (length ws)). set (P := filter (fun x => mem (snd x) (in_trace c)) (combine A A)).
    assert (EP : map fst P = map snd P). { unfold P. generalize A. intros l. induction l as [|x l IH]; cbn; auto. destruct (mem x (in_trace c)); cbn; congruence. }
    set (B' := map snd P) in *.
    set (s' := restrict (fun i => mem i (in_trace c)) (fun i => mem i (out_diagonal c)) (fun i => mem i (out_broadcast c)) (trace_only A A [0%nat])).
    assert (E1 : out_trace s' = B') by exact EP. assert (E2 : in_trace s' = B') by reflexivity. assert (E3 : out_broadcast s' = []) by reflexivity.
    assert (Fit : fits (trace_only A A [0%nat]) (in_trace (trace_only A A [0%nat])) [] ws ws).
    { apply fits_trace; [apply seq_NoDup|apply seq_NoDup|auto|]. intros a b I. apply in_combine_same in I. destruct I as [<- I]. apply in_seq in I. repeat split; lia. }
    destruct (no_diagonal (ReshapeTo ns) 0 [Undefined ws] ws ns c (trace_only A A [0%nat]) (gather (fun y => Some y) (fun _ => 1)) eq_refl Hc eq_refl eq_refl eq_refl
      Fit
      [Undefined (trimmed B' ws)] (Undefined (trimmed B' ws)) (trimmed B' ws)
      (gather (fun y => Some (unravel (trimmed B' ws) (ravel (trimmed B' ws) y))) (fun _ => 1)) (gather (fun y => Some y) (fun _ => 1)) jr) as (r & E & F & G).
    + apply trim_one.
    + reflexivity.
    + reflexivity.
    + cbn [_trim_eqn vshape nth map filled]. apply Haff. reflexivity.
    + fold s'. cbn [use_shape]. now rewrite E1, E3, app_nil_r.
    + fold s'. cbn [use_shape]. rewrite E1, E3, app_nil_r. intros y w Hy Hw. unfold gather. rewrite !unravel_ravel by (rewrite ?unravel_ravel; auto). reflexivity.
    + fold s'. cbn [use_shape]. rewrite E1, E2, E3, app_nil_r. cbn [_trim_eqn vshape nth]. apply Hid.
    + intros y w Hy Hw. cbn [use_shape] in Hy. rewrite restrict_pairs. fold s'. rewrite E1, E2, E3, app_nil_r. apply gather_structure.
      * intros a b I v Ev. injection Ev as <-. apply filter_In in I. destruct I as [I _]. apply in_combine_same in I. now destruct I as [<- _].
      * intros v Ev. injection Ev as <-. now rewrite (in_range_length _ _ Hy), (in_range_length _ _ Hw).
      * reflexivity.
      * reflexivity.
    + exists r, s'. split; [exact E|]. split; [exact F|exact G].
  - edestruct (no_rules (ReshapeTo ns) 0 [Undefined ws] ws ns c (gather (fun y => Some (unravel ws (ravel ns y))) (fun _ => 1)) (gather (fun y => Some y) (fun _ => 1)) jr) as (r & E & F & G); auto.
    + cbn [map filled]. now apply Haff.
    + cbn [use_shape]. intros y w Hy Hw. unfold gather. rewrite (ravel_unravel ns) by (rewrite Hsz; now apply ravel_lt). now rewrite unravel_ravel.
    + cbn [use_shape]. specialize (Hid ws). exact Hid.
    + exists r, empty_structure. auto.
Qed.

(** * [broadcast_in_dim] *)

Lemma increasing_NoDup : forall l, increasing l = true -> NoDup l /\ forall a, In a (tl l) -> (hd 0%nat l < a)%nat.
Proof.
  induction l as [|x [|y l] IH]; intros H; cbn in *; [split; [constructor|easy]|split; [repeat constructor; auto|easy]|].
  apply andb_prop in H. destruct H as [L H]. apply Nat.ltb_lt in L. destruct (IH H) as [N G]. split.
  - constructor; auto. intros [<-|I]; [lia|]. specialize (G x I). lia.
  - intros a [<-|I]; auto. specialize (G a I). lia.
Qed.
Lemma increasing_cons x l : increasing (x :: l) = match l with [] => true | y :: _ => (x <? y)%nat && increasing l end.
Proof. destruct l; reflexivity. Qed.
Lemma increasing_seq : forall n m, increasing (seq m n) = true.
Proof.
  induction n as [|n IH]; intros m; auto. cbn [seq]. rewrite increasing_cons. specialize (IH (S m)). destruct n; auto. cbn [seq] in *. rewrite IH, andb_true_r. apply Nat.ltb_lt. lia.
Qed.
Lemma increasing_app : forall l m n, increasing l = true -> (forall a, In a l -> (a < m)%nat) -> increasing (l ++ seq m n) = true.
Proof.
  induction l as [|x l IH]; intros m n H G; [apply increasing_seq|]. cbn [app]. rewrite increasing_cons in H |- *. destruct l as [|y l]; cbn [app].
  - destruct n; auto. cbn [seq]. rewrite (increasing_seq (S n) m : increasing (m :: seq (S m) n) = true), andb_true_r. apply Nat.ltb_lt, G. now left.
  - apply andb_prop in H. destruct H as [L H]. rewrite L. cbn [andb]. apply (IH m n); auto. intros a I. apply G. now right.
Qed.

Lemma foldM_id {A B} (l : list A) (b : B) : foldM (fun _ b => Ok b) l b = Ok b.
Proof. induction l as [|a l IH]; cbn; auto. Qed.
Lemma foldM_trim sh : forall l, foldM (fun ax => trim_at 0 [ax]) l [Undefined sh] = Ok [Undefined (trimmed l sh)].
Proof.
  intros l. assert (G : forall sh, foldM (fun ax => trim_at 0 [ax]) l [Undefined sh] = Ok [Undefined (trimmed l sh)]).
  { induction l as [|a l IH]; intros s; cbn [foldM]; [now rewrite trimmed_nil|]. cbn [trim_at get_item nth_error bind set_item]. unfold set_item.
    change (bind (Ok [trim_value [a] (Undefined s)]) (foldM (fun ax => trim_at 0 [ax]) l) = Ok [Undefined (trimmed (a :: l) s)]).
    cbn [bind trim_value]. rewrite trim_axis_trimmed, IH, trimmed_trimmed. f_equal. f_equal. f_equal. apply trimmed_ext. intros k _. right. rewrite in_app_iff. cbn. tauto. }
  apply G.
Qed.

Definition broadcast_src (dims y : list nat) : option (list nat) := Some (map (fun d => nth d y 0%nat) dims).
Definition broadcast_valid (dims ws ys : list nat) : Prop :=
  length dims = length ws /\ increasing dims = true /\ (forall a, In a dims -> (a < length ys)%nat) /\
  forall k, (k < length dims)%nat -> nth k ws 0%nat = nth (nth k dims 0%nat) ys 0%nat.

Lemma combine_map_seq {A B C} (f : A * B -> C) da db : forall (l : list A) (m : list B), length l = length m ->
  map f (combine l m) = map (fun a => f (nth a l da, nth a m db)) (seq 0 (length l)).
Proof.
  induction l as [|x l IH]; intros [|y m] L; cbn [length combine map seq] in *; try easy. f_equal. rewrite IH by lia. rewrite <- seq_shift, map_map. reflexivity.
Qed.
Lemma combine_forallb_seq {A B} (f : A * B -> bool) da db : forall (l : list A) (m : list B), length l = length m ->
  forallb f (combine l m) = forallb (fun a => f (nth a l da, nth a m db)) (seq 0 (length l)).
Proof.
  intros l m L. assert (E : forall {X} (g : X -> bool) k, forallb g k = forallb (fun b : bool => b) (map g k)).
  { intros X g k. induction k as [|x k IH]; cbn; auto. now rewrite IH. }
  rewrite E. rewrite (combine_map_seq f da db) by auto. rewrite <- E. reflexivity.
Qed.

Lemma broadcast_src_range dims ws ys y v : broadcast_valid dims ws ys -> in_range ys y -> broadcast_src dims y = Some v -> in_range ws v.
Proof.
  intros (L & I & B & E) Hy Ev. injection Ev as <-. apply in_range_nth. rewrite map_length. split; auto. intros k Hk. rewrite <- L in Hk.
  rewrite (nth_map_in _ _ _ _ 0%nat) by auto. rewrite E by auto. apply in_range_nth in Hy. apply Hy, B. now apply nth_In.
Qed.

Lemma broadcast_eval dims ws ys t : broadcast_valid dims ws ys -> shape t = ws -> exists o, lax_broadcast_in_dim t ys dims = Ok o /\ shape o = ys /\
  forall y, in_range ys y -> entry o y = entry t (map (fun d => nth d y 0%nat) dims).
Proof.
  intros V Ht. assert (V0 := V). destruct V as (L & I & B & E). unfold lax_broadcast_in_dim, ndim. rewrite Ht, L, Nat.eqb_refl, I.
  replace (forallb (fun a => (a <? length ys)%nat) dims) with true. 2:{ symmetry. apply forallb_forall. intros a Ia. now apply Nat.ltb_lt, B. }
  rewrite (combine_forallb_seq _ 0%nat 0%nat) by auto. cbn [fst snd].
  replace (forallb _ (seq 0 (length ws))) with true.
  2:{ symmetry. apply forallb_forall. intros a Ia. apply in_seq in Ia. rewrite E by lia. rewrite Nat.eqb_refl. apply orb_true_r. }
  cbn [andb]. eexists. split; [reflexivity|]. cbn. split; auto. intros y Hy. f_equal. rewrite (combine_map_seq _ 0%nat 0%nat) by auto. cbn [fst snd].
  apply list_nth_eq; [now rewrite !map_length, seq_length|]. rewrite map_length, seq_length. intros k Hk. rewrite map_seq_at' by auto.
  rewrite (nth_map_in _ _ _ _ 0%nat) by lia. destruct (Nat.eqb_spec (nth k ws 0%nat) 1) as [Q|]; auto.
  apply in_range_nth in Hy. destruct Hy as [_ Hy]. specialize (Hy (nth k dims 0%nat)). rewrite <- E, Q in Hy by lia.
  assert (nth (nth k dims 0%nat) y 0 < 1)%nat by (apply Hy, B, nth_In; lia). lia.
Qed.

Lemma broadcast_rule sh dims ws ys : broadcast_valid dims ws ys -> rule_ok (BroadcastInDim sh dims) 0 [Undefined ws] ws ys (gather (broadcast_src dims) (fun _ => 1)).
Proof.
  intros V. assert (V0 := V). destruct V as (L & I & B & E). unfold rule_ok. cbn [jacobian_rule vshape nth]. unfold _broadcast_in_dim_j.
  destruct (eye_square ws) as (j & Ej & Sj & Fj). rewrite Ej. cbn [bind].
  assert (V2 : broadcast_valid (dims ++ seq (length ys) (length ws)) (ws ++ ws) (ys ++ ws)).
  { repeat split.
    - rewrite !app_length, seq_length. lia.
    - now apply increasing_app.
    - intros a Ia. rewrite app_length. apply in_app_iff in Ia. destruct Ia as [Ia|Ia]; [apply B in Ia|apply in_seq in Ia]; lia.
    - intros k Hk. rewrite app_length, seq_length in Hk. destruct (Nat.lt_ge_cases k (length dims)) as [K|K].
      + rewrite (app_nth1 ws) by lia. rewrite (app_nth1 dims) by auto. rewrite app_nth1 by (now apply B, nth_In). auto.
      + rewrite (app_nth2 ws) by lia. rewrite (app_nth2 dims) by auto. rewrite seq_nth by lia. rewrite app_nth2 by lia. f_equal. lia. }
  destruct (broadcast_eval _ _ _ _ V2 Sj) as (o & Eo & So & Fo). exists o. split; auto. split; auto. intros y w Hy Hw. rewrite Fo by (now apply in_range_app).
  pose proof (in_range_length _ _ Hy) as Ly. pose proof (in_range_length _ _ Hw) as Lw.
  rewrite map_app. replace (map (fun d => nth d (y ++ w) 0%nat) dims) with (map (fun d => nth d y 0%nat) dims).
  2:{ apply map_ext_in. intros a Ia. apply B in Ia. rewrite app_nth1; auto. lia. }
  replace (map (fun d => nth d (y ++ w) 0%nat) (seq (length ys) (length ws))) with w.
  2:{ symmetry. apply list_nth_eq; [now rewrite map_length, seq_length|]. intros a Ha. rewrite map_length, seq_length in Ha.
      rewrite (nth_map_in _ _ _ _ 0%nat) by (now rewrite seq_length). rewrite seq_nth by auto. rewrite app_nth2 by lia. f_equal. lia. }
  unfold gather, broadcast_src. apply Fj; auto. apply (broadcast_src_range dims ws ys y); auto.
Qed.

Lemma broadcast_affine dims ws ys x : broadcast_valid dims ws ys -> affine (BroadcastInDim ys dims) 0 [x] ws ys (gather (broadcast_src dims) (fun _ => 1)).
Proof.
  intros V. apply (gather_affine _ 0 _ ws ys (broadcast_src dims) (fun _ => 1) (fun _ => 0)); [intros; eapply broadcast_src_range; eauto|].
  intros t Ht. destruct (broadcast_eval _ _ _ _ V Ht) as (o & Eo & So & Fo). exists o. split; [exact Eo|]. split; auto. intros y Hy. rewrite Fo by auto. unfold broadcast_src. ring.
Qed.

Lemma broadcast_sound dims ws ys c : broadcast_valid dims ws ys -> common ws c ->
  sound (BroadcastInDim ys dims) 0 [Undefined ws] ws ys c (gather (broadcast_src dims) (fun _ => 1)).
Proof.
  intros V Hc. assert (V0 := V). destruct V as (L & I & B & E). destruct (increasing_NoDup _ I) as [ND _]. intros [|] jr.
  - set (A := dims). set (Bx := seq 0 (length ws)). set (O := kept dims (length ys)).
    set (s := mkStructure A Bx [0%nat] [] [] O [] [] 0).
    set (s' := restrict (fun i => mem i (in_trace c)) (fun i => mem i (out_diagonal c)) (fun i => mem i (out_broadcast c)) s).
    set (P := filter (fun x => mem (snd x) (in_trace c)) (combine A Bx)).
    set (A' := map fst P). set (B' := map snd P). set (O' := filter (fun i => mem i (out_broadcast c)) O).
    assert (LAB : length A = length Bx) by (unfold A, Bx; now rewrite seq_length).
    assert (E1 : out_trace s' = A') by reflexivity. assert (E2 : in_trace s' = B') by reflexivity. assert (E3 : out_broadcast s' = O') by reflexivity.
    assert (PM : forall k, (k < length ws)%nat -> mem (nth k dims 0%nat) A' = mem k (in_trace c) /\ mem k B' = mem k (in_trace c)).
    { intros k Hk. apply (pair_mem (fun i => mem i (in_trace c)) A Bx); auto; [apply seq_NoDup|]. unfold A, Bx.
      replace (nth k dims 0%nat, k) with (nth k (combine dims (seq 0 (length ws))) (0%nat, 0%nat)). 2:{ rewrite combine_nth by auto. now rewrite seq_nth. }
      apply nth_In. rewrite combine_length, seq_length. lia. }
    assert (NO : forall k, (k < length ws)%nat -> mem (nth k dims 0%nat) O' = false).
    { intros k Hk. apply mem_false. intros Q. apply filter_In in Q. destruct Q as [Q _]. apply kept_In in Q. apply Q. apply nth_In. lia. }
    assert (LA : length ys = length (trimmed (A' ++ O') ys)) by (now rewrite trimmed_len).
    assert (V' : broadcast_valid dims (trimmed B' ws) (trimmed (A' ++ O') ys)).
    { repeat split; rewrite ?trimmed_len; auto. intros k Hk. assert (Hk2 : (k < length ws)%nat) by lia.
      rewrite !trimmed_at by (auto; apply B, nth_In; auto). destruct (PM k Hk2) as [M1 M2]. rewrite M2.
      replace (mem (nth k dims 0%nat) (A' ++ O')) with (mem k (in_trace c)). 2:{ unfold mem at 2. rewrite existsb_app. fold (mem (nth k dims 0%nat) A') (mem (nth k dims 0%nat) O'). now rewrite M1, NO, orb_false_r. }
      destruct (mem k (in_trace c)); auto. }
    assert (Fit : fits s (in_trace s) [] (use_shape (BroadcastInDim ys dims) ys ws) ws).
    { unfold fits. cbn [use_shape s out_trace out_diagonal out_broadcast in_trace app length]. rewrite !app_nil_r. repeat split.
      - apply NoDup_app_intro; auto; [apply kept_NoDup|]. intros x X1 X2. apply kept_In in X2. now apply X2.
      - apply Forall_app. split; apply Forall_forall; intros x X; [now apply B|apply kept_In in X; apply X].
      - apply seq_NoDup.
      - apply Forall_forall. intros x X. apply in_seq in X. lia.
      - exact LAB.
      - cbn [combine]. apply Forall_forall. intros [a b] X. cbn. unfold A, Bx in X. apply In_nth with (d := (0%nat, 0%nat)) in X. destruct X as (k & Hk & X).
        rewrite combine_length, seq_length in Hk. rewrite combine_nth in X by auto. rewrite seq_nth in X by lia. injection X as <- <-. symmetry. apply E. lia. }
    destruct (no_diagonal (BroadcastInDim ys dims) 0 [Undefined ws] ws ys c s (gather (broadcast_src dims) (fun _ => 1)) eq_refl Hc eq_refl eq_refl eq_refl
      Fit [Undefined (trimmed B' ws)] (Undefined (trimmed B' ws)) (trimmed (A' ++ O') ys)
      (gather (broadcast_src dims) (fun _ => 1)) (gather (broadcast_src dims) (fun _ => 1)) jr) as (r & Er & F & G).
    + fold s'. unfold _trim_invals. change (in_trace_idxs s') with [0%nat]. change (out_broadcast_idxs s') with (@nil nat). change (in_broadcast_idx s') with 0%nat. change (in_broadcast s') with O'.
      change (in_diagonal s') with (@nil (list (option nat))). rewrite E2, E3. cbn [foldM]. cbn [trim_at get_item nth_error bind].
      change (set_item [Undefined ws] 0 (trim_value B' (Undefined ws))) with (Ok [Undefined (trimmed B' ws)]). cbn [bind]. rewrite foldM_trim. cbn [bind].
      rewrite foldM_id.
      cbn [bind trim_diagonal fold_left]. rewrite trimmed_trimmed. f_equal. f_equal. f_equal. apply trimmed_ext. intros k Hk. rewrite in_app_iff.
      destruct (mem k O') eqn:MO; [|right; apply mem_false in MO; tauto]. apply mem_iff in MO. apply filter_In in MO. destruct MO as [_ MO]. apply mem_iff in MO.
      destruct Hc as [_ Hc]. destruct (Hc k MO Hk) as [Q|Q]; [right|auto]. destruct (PM k Hk) as [_ M2]. rewrite (proj2 (mem_iff _ _) Q) in M2. apply mem_iff in M2. tauto.
    + reflexivity.
    + reflexivity.
    + cbn [_trim_eqn]. cbn [use_shape]. fold s'. rewrite E1, E3. now apply broadcast_affine.
    + reflexivity.
    + fold s'. cbn [use_shape]. rewrite E1, E3. intros y w Hy Hw. now rewrite unravel_ravel.
    + fold s'. cbn [use_shape _trim_eqn]. rewrite E1, E2, E3. now apply broadcast_rule.
    + intros y w Hy Hw. cbn [use_shape] in Hy. rewrite restrict_pairs. change (filter _ (combine (out_trace s) (in_trace s))) with P. fold s'. rewrite E1, E2, E3. apply (gather_structure P).
      * intros a b X v Ev. apply filter_In in X. destruct X as [X _]. injection Ev as <-. apply In_nth with (d := (0%nat, 0%nat)) in X. destruct X as (k & Hk & X). cbn in Hk, X.
        unfold A, Bx in *. rewrite combine_length, seq_length in Hk. rewrite combine_nth in X by auto. rewrite seq_nth in X by lia. injection X as <- <-. cbn. now rewrite (nth_map_in _ _ _ _ 0%nat) by lia.
      * intros v Ev. rewrite (in_range_length _ _ Hw). apply in_range_length. eapply broadcast_src_range; eauto.
      * unfold broadcast_src. cbn [option_map]. apply some_eq. fold B'. apply list_nth_eq; [now rewrite zeroed_length, !map_length|]. rewrite map_length. intros k Hk.
        rewrite zeroed_nth, !(nth_map_in _ _ _ _ 0%nat) by auto. rewrite zeroed_nth. assert (Hk2 : (k < length ws)%nat) by lia. destruct (PM k Hk2) as [M1 M2]. rewrite M2.
        unfold mem at 1. rewrite existsb_app. fold (mem (nth k dims 0%nat) A') (mem (nth k dims 0%nat) O'). now rewrite M1, NO, orb_false_r.
      * reflexivity.
    + exists r, s'. split; [exact Er|]. split; [exact F|exact G].
  - edestruct (no_rules (BroadcastInDim ys dims) 0 [Undefined ws] ws ys c (gather (broadcast_src dims) (fun _ => 1)) (gather (broadcast_src dims) (fun _ => 1)) jr) as (r & Er & F & G); auto.
    + cbn [map filled]. now apply broadcast_affine.
    + cbn [use_shape]. intros y w Hy Hw. now rewrite unravel_ravel.
    + cbn [use_shape]. now apply broadcast_rule.
    + exists r, empty_structure. auto.
Qed.
