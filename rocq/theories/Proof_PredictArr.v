(** Arrays of any rank as tables: reading indices along axes, [moveaxis], [tensordot], [reshape] and broadcasting. *)
From Coq Require Import Reals ZArith List Arith Lia Lra Bool Permutation Sorted.
From Verif Require Import Base Tensor Reshape Model_Axes Model_Net Model_Predict Model_Empirical Model_Structure Model_Aggregate Model_Structured Model_Lax Model_PredictArr
  Spec_Axes Spec_Inputs Spec_Structure Spec_Structured Spec_Predict Proof_Linalg Proof_Tsum Proof_Einsum Proof_Structure Proof_Structured Proof_Structured2 Proof_Structured3 Proof_Structured4 Proof_Rules Proof_Rules2 Proof_Rules3 Proof_Rules4 Proof_Rules5 Proof_Rules9 Proof_Rules10 Proof_Rules11 Proof_Rules13 Proof_Rules14 Proof_Move Proof_RulesConv4 Spec_PredictArr.
From Verif Require Proof_Axes Proof_Axes2 Proof_Attention9 Proof_Mask Proof_MonteCarlo Proof_Inputs Proof_Backward3 Proof_Dot.
Import ListNotations.
Local Open Scope R_scope.

Lemma along_length T i : length (along T i) = length T.
Proof. apply map_length. Qed.
Lemma others_kept T n : others T n = kept T n.
Proof. reflexivity. Qed.

(** * Traced axes *)
Lemma traced_bound n tr T : traced n tr T -> forall a, In a T -> (a < n)%nat.
Proof. intros (_ & _ & H) a Ha. apply H in Ha. destruct Ha as (z & _ & B & _). exact B. Qed.
Lemma sorted_NoDup T : StronglySorted lt T -> NoDup T.
Proof. induction 1 as [|a l S IH F]; constructor; auto. intros I. rewrite Forall_forall in F. apply F in I. lia. Qed.
Lemma traced_NoDup n tr T : traced n tr T -> NoDup T.
Proof. intros (H & _). now apply sorted_NoDup. Qed.

Lemma names_indices n : forall tr, (forall z, In z tr -> exists a, names_axis n z a) ->
  exists l, py_indices n tr = Ok l /\ forall a, In a l <-> exists z, In z tr /\ names_axis n z a.
Proof.
  induction tr as [|z tr IH]; intros H; [exists []; split; [reflexivity|]; intros a; split; [intros []|intros (z & [] & _)]|].
  destruct (H z) as (a & Ha); [now left|]. destruct IH as (l & E & Hl); [intros; apply H; now right|].
  exists (a :: l). cbn [py_indices]. rewrite (Proof_Mask.names_py_index _ _ _ Ha), E. split; [reflexivity|].
  intros b. cbn [In]. rewrite Hl. split.
  - intros [<-|(w & I & N)]; [exists z; auto|exists w; auto].
  - intros (w & [<-|I] & N); [left|right; now exists w]. destruct Ha as [Ba Ha], N as [Bb N]. lia.
Qed.

Lemma canonical n tr T : traced n tr T -> canonicalize_axis tr n = Ok T.
Proof.
  intros (S & N & H). unfold canonicalize_axis. destruct (names_indices n tr N) as (l & -> & Hl). cbn [rmap]. f_equal.
  rewrite <- (filter_increasing T n) at 1; [|exact S|intros a Ha; apply H in Ha; destruct Ha as (z & _ & B & _); exact B].
  apply filter_ext_in. intros a _. apply eq_true_iff_eq. rewrite !mem_iff, Hl, H. reflexivity.
Qed.

Lemma traced_self n T : StronglySorted lt T -> (forall a, In a T -> (a < n)%nat) -> traced n (zs T) T.
Proof.
  intros S B. split; auto. unfold zs. split.
  - intros z Hz. apply in_map_iff in Hz. destruct Hz as (a & <- & Ha). exists a. split; auto.
  - intros a. split; [intros Ha; exists (Z.of_nat a); split; [now apply in_map|split; auto]|].
    intros (z & Hz & Ba & N). apply in_map_iff in Hz. destruct Hz as (b & <- & Hb). pose proof (B _ Hb). replace a with b by lia. auto.
Qed.
Lemma traced_negative n T : StronglySorted lt T -> (forall a, In a T -> (a < n)%nat) -> traced n (map (fun a => Z.of_nat a - Z.of_nat n)%Z T) T.
Proof.
  intros S B. split; auto. split.
  - intros z Hz. apply in_map_iff in Hz. destruct Hz as (a & <- & Ha). exists a. split; auto.
  - intros a. split; [intros Ha; eexists; split; [apply in_map; exact Ha|split; auto]|].
    intros (z & Hz & Ba & N). apply in_map_iff in Hz. destruct Hz as (b & <- & Hb). pose proof (B _ Hb). replace a with b by lia. auto.
Qed.

Lemma py_indices_names n tr l : Forall2 (names_axis n) tr l -> py_indices n tr = Ok l.
Proof. induction 1 as [|z a tr l H _ IH]; [reflexivity|]. cbn [py_indices]. now rewrite (Proof_Mask.names_py_index _ _ _ H), IH. Qed.
Lemma Forall2_map_self {A B} (P : B -> A -> Prop) (f : A -> B) (g : A -> A) l : (forall a, In a l -> P (f a) (g a)) -> Forall2 P (map f l) (map g l).
Proof. induction l as [|a l IH]; intros H; constructor; [apply H; now left|apply IH; intros; apply H; now right]. Qed.
Lemma indices_zs n l : (forall a, In a l -> (a < n)%nat) -> py_indices n (zs l) = Ok l.
Proof. intros H. apply py_indices_names. rewrite <- (map_id l) at 2. apply Forall2_map_self. intros a Ha. split; auto. Qed.
(** Axes counted from the end, in an array with [m] more axes in front. *)
Lemma indices_negative n m l : (forall a, In a l -> (a < n)%nat) ->
  py_indices (m + n) (map (fun a => Z.of_nat a - Z.of_nat n)%Z l) = Ok (map (fun a => (m + a)%nat) l).
Proof. intros H. apply py_indices_names. apply Forall2_map_self. intros a Ha. pose proof (H a Ha). split; [lia|right; lia]. Qed.
Lemma shift_seq m n : map (fun a => (m + a)%nat) (seq 0 n) = seq m n.
Proof.
  rewrite <- (Nat.add_0_r m) at 1. generalize 0%nat. induction n as [|n IH]; intros k; cbn; auto. f_equal. rewrite IH. f_equal. lia.
Qed.
Lemma indices_last m k : py_indices (m + k) (last_axes k) = Ok (seq m k).
Proof. unfold last_axes. rewrite (indices_negative k m (seq 0 k)) by (intros a Ha; apply in_seq in Ha; lia). now rewrite shift_seq. Qed.
Lemma indices_app n a b la lb : py_indices n a = Ok la -> py_indices n b = Ok lb -> py_indices n (a ++ b) = Ok (la ++ lb).
Proof.
  revert la. induction a as [|z a IH]; intros la Ha Hb; cbn [py_indices] in Ha; [injection Ha as <-; exact Hb|].
  cbn [app py_indices]. destruct (py_index n z) as [x|]; [|discriminate]. cbn [bind] in Ha |- *.
  destruct (py_indices n a) as [l|]; [|discriminate]. injection Ha as <-. now rewrite (IH l eq_refl Hb).
Qed.

(** * Splitting an index *)
Section Split.
  Variables (n : nat) (T : list nat).
  Hypothesis TS : StronglySorted lt T.
  Hypothesis TB : forall a, In a T -> (a < n)%nat.
  Notation O := (others T n).

  Lemma T_NoDup : NoDup T.
  Proof. now apply sorted_NoDup. Qed.
  Lemma O_NoDup : NoDup O.
  Proof. apply kept_NoDup. Qed.
  Lemma O_In a : In a O <-> (a < n)%nat /\ ~ In a T.
  Proof. apply kept_In. Qed.
  Lemma O_bound a : In a O -> (a < n)%nat.
  Proof. intros H. now apply O_In in H. Qed.
  Lemma O_kept : kept O n = T.
  Proof.
    rewrite <- (filter_increasing T n TS TB) at 2. unfold kept. apply filter_ext_in. intros a Ha. apply in_seq in Ha.
    apply eq_true_iff_eq. rewrite negb_true_iff, mem_false, mem_iff, O_In. destruct (in_dec Nat.eq_dec a T); intuition lia.
  Qed.
  Lemma O_length : (length O + length T = n)%nat.
  Proof. apply (kept_length T n T_NoDup TB). Qed.

  (** The index with the given untraced and traced parts. *)
  Definition put (p q : list nat) : list nat := merged O n p q.
  Lemma put_length p q : length (put p q) = n.
  Proof. unfold put, merged. now rewrite map_length, seq_length. Qed.
  Lemma put_iff p q w : length p = length O -> length q = length T -> length w = n -> put p q = w <-> p = along O w /\ q = along T w.
  Proof. intros Lp Lq Lw. rewrite <- O_kept at 2. apply merged_eq; auto using O_NoDup, O_bound. now rewrite O_kept. Qed.
  Lemma put_read w : length w = n -> put (along O w) (along T w) = w.
  Proof. intros Lw. apply put_iff; auto using along_length. Qed.
  Lemma along_put p q : length p = length O -> length q = length T -> along O (put p q) = p /\ along T (put p q) = q.
  Proof. intros Lp Lq. destruct (proj1 (put_iff p q (put p q) Lp Lq (put_length p q)) eq_refl). split; congruence. Qed.
  Lemma put_range ws p q : length ws = n -> in_range (along O ws) p -> in_range (along T ws) q -> in_range ws (put p q).
  Proof.
    intros E Hp Hq. pose proof (merged_range O ws p q) as M. rewrite E, O_kept in M. apply M; auto using O_bound.
  Qed.
  Lemma along_range l ws w : (forall a, In a l -> (a < length ws)%nat) -> in_range ws w -> in_range (along l ws) (along l w).
  Proof.
    intros B H. apply in_range_nth in H. destruct H as [L H]. unfold along. induction l as [|a l IH]; constructor; [apply H, B; now left|apply IH; intros; apply B; now right].
  Qed.
  (** A sum over indices with given traced part. *)
  Lemma tsum_put ws q f : length ws = n -> in_range (along T ws) q ->
    tsum ws (fun w => if list_eq_dec Nat.eq_dec q (along T w) then f w else 0) = tsum (along O ws) (fun p => f (put p q)).
  Proof.
    intros E Hq. pose proof (in_range_length _ _ Hq) as Lq. rewrite along_length in Lq.
    transitivity (tsum ws (fun w => tsum (along O ws) (fun p => if list_eq_dec Nat.eq_dec (put p q) w then f w else 0))).
    - apply tsum_ext. intros w Hw. pose proof (tsum_merged O ws q w (fun _ => f w)) as M. rewrite E, O_kept in M. symmetry. apply M; auto using O_NoDup, O_bound.
    - rewrite tsum_swap. apply tsum_ext. intros p Hp. rewrite <- (tsum_one_hot ws (put p q) f) by now apply put_range.
      apply tsum_ext. intros w _. destruct (list_eq_dec Nat.eq_dec (put p q) w) as [<-|N]; destruct (list_eq_dec Nat.eq_dec _ _); try congruence; ring.
  Qed.
  Lemma size_split ws : length ws = n -> (size (along O ws) * size (along T ws) = size ws)%nat.
  Proof.
    intros E. assert (P : Permutation (O ++ T) (seq 0 n)).
    { apply NoDup_Permutation; [apply NoDup_app_intro; auto using O_NoDup, T_NoDup|apply seq_NoDup|].
      - intros a I J. apply O_In in I. tauto.
      - intros a. rewrite in_app_iff, O_In, in_seq. split; [intros [I|I]; [lia|apply TB in I; lia]|]. intros I. destruct (in_dec Nat.eq_dec a T); [now right|left; split; [lia|auto]]. }
    rewrite <- size_app. unfold along. rewrite <- map_app. replace (size ws) with (size (map (fun a => nth a ws 0%nat) (seq 0 n))) by (rewrite <- E, map_nth_seq_all; reflexivity).
    apply (Permutation_map (fun a => nth a ws 0%nat)) in P. revert P. generalize (map (fun a => nth a ws 0%nat) (O ++ T)) (map (fun a => nth a ws 0%nat) (seq 0 n)).
    induction 1; cbn; lia.
  Qed.
End Split.

(** * [moveaxis] *)
Lemma np_moveaxis_moved (t : tensor R) n zsrc zdst src dst s s' : ndim t = n -> py_indices n zsrc = Ok src -> py_indices n zdst = Ok dst ->
  length src = length dst -> NoDup src -> NoDup dst -> (forall x, In x src -> (x < n)%nat) -> (forall x, In x dst -> (x < n)%nat) ->
  shape t = s -> moved n src dst s s' ->
  exists u, np_moveaxis zsrc zdst t = Ok u /\ shape u = s' /\ forall i i', moved n src dst i i' -> entry u i' = entry t i.
Proof. intros <- E1 E2 L N1 N2 B1 B2 S M. unfold np_moveaxis. rewrite E1, E2. cbn [bind]. now apply (moveaxis_moved t (ndim t) src dst s s'). Qed.

Section Moves.
  Variables (n : nat) (T : list nat).
  Hypothesis TS : StronglySorted lt T.
  Hypothesis TB : forall a, In a T -> (a < n)%nat.
  Notation O := (others T n).
  Notation k := (length T).

  Lemma shifted_T m a : In a (map (fun a => (m + a)%nat) T) -> (m <= a < m + n)%nat.
  Proof. intros H. apply in_map_iff in H. destruct H as (b & <- & Hb). apply TB in Hb. lia. Qed.
  Lemma shift_NoDup m : NoDup (map (fun a => (m + a)%nat) T).
  Proof. apply FinFun.Injective_map_NoDup; [intros x y; lia|]. now apply sorted_NoDup. Qed.
  Lemma kept_shifted m : kept (map (fun a => (m + a)%nat) T) (m + n) = seq 0 m ++ map (fun a => (m + a)%nat) O.
  Proof.
    rewrite (map_ext (fun a => (m + a)%nat) (fun a => (a + m)%nat)) by (intros; lia). rewrite kept_shift. f_equal. apply map_ext. intros; lia.
  Qed.
  Lemma read_seq_app l m : spec_read (seq (length l) (length m)) (l ++ m) = m.
  Proof. rewrite <- (app_nil_r m) at 2. now apply read_middle. Qed.

  (** To the end and back, with [m] other axes in front. *)
  Lemma moved_last m r i : length r = m -> length i = n ->
    moved (m + n) (map (fun a => (m + a)%nat) T) (seq (m + length O) k) (r ++ i) (r ++ along O i ++ along T i).
  Proof.
    intros Lr Li. pose proof (O_length n T TS TB) as LO. split; [rewrite app_length; lia|]. split; [rewrite !app_length, !along_length; lia|]. split.
    - rewrite (read_shift m T r i Lr). rewrite app_assoc.
      replace (m + length O)%nat with (length (r ++ along O i)) by (rewrite app_length, along_length; lia).
      replace k with (length (along T i)) at 1 by apply along_length. apply read_seq_app.
    - rewrite kept_shifted, read_app, (read_prefix r i m Lr), (read_shift m O r i Lr).
      replace (m + n)%nat with ((m + length O) + k)%nat by lia.
      rewrite (kept_prefix (seq (m + length O) k)) by (intros x Hx; rewrite in_seq in *; lia).
      rewrite app_assoc. apply read_prefix. rewrite app_length, along_length. lia.
  Qed.
  Lemma moved_sym N src dst i i' : moved N src dst i i' -> moved N dst src i' i.
  Proof. intros (A & B & C & D). repeat split; auto. Qed.

  Lemma move_traced_last (t : tensor R) m r s tl : shape t = r ++ s -> length r = m -> length s = n ->
    py_indices (m + n) tl = Ok (map (fun a => (m + a)%nat) T) ->
    exists u, np_moveaxis tl (last_axes k) t = Ok u /\ shape u = r ++ along O s ++ along T s
      /\ forall a i, length a = m -> length i = n -> entry u (a ++ along O i ++ along T i) = entry t (a ++ i).
  Proof.
    intros S Lr Ls E. pose proof (O_length n T TS TB) as LO. assert (D : ndim t = (m + n)%nat) by (unfold ndim; rewrite S, app_length; lia).
    destruct (np_moveaxis_moved t (m + n) tl (last_axes k) (map (fun a => (m + a)%nat) T) (seq (m + length O) k) (r ++ s) (r ++ along O s ++ along T s)) as (u & Eu & Su & Ru); auto.
    - replace (m + n)%nat with (m + length O + k)%nat by lia. apply indices_last.
    - now rewrite map_length, seq_length.
    - apply shift_NoDup.
    - apply seq_NoDup.
    - intros x Hx. apply shifted_T in Hx. lia.
    - intros x Hx. apply in_seq in Hx. lia.
    - now apply moved_last.
    - exists u. split; [exact Eu|]. split; [exact Su|]. intros a i La Li. apply Ru. now apply moved_last.
  Qed.
  Lemma move_last_traced (t : tensor R) m r s tl : shape t = r ++ along O s ++ along T s -> length r = m -> length s = n ->
    py_indices (m + n) tl = Ok (map (fun a => (m + a)%nat) T) ->
    exists u, np_moveaxis (last_axes k) tl t = Ok u /\ shape u = r ++ s
      /\ forall a i, length a = m -> length i = n -> entry u (a ++ i) = entry t (a ++ along O i ++ along T i).
  Proof.
    intros S Lr Ls E. pose proof (O_length n T TS TB) as LO. assert (D : ndim t = (m + n)%nat) by (unfold ndim; rewrite S, !app_length, !along_length; lia).
    destruct (np_moveaxis_moved t (m + n) (last_axes k) tl (seq (m + length O) k) (map (fun a => (m + a)%nat) T) (r ++ along O s ++ along T s) (r ++ s)) as (u & Eu & Su & Ru); auto.
    - replace (m + n)%nat with (m + length O + k)%nat by lia. apply indices_last.
    - now rewrite map_length, seq_length.
    - apply seq_NoDup.
    - apply shift_NoDup.
    - intros x Hx. apply in_seq in Hx. lia.
    - intros x Hx. apply shifted_T in Hx. lia.
    - apply moved_sym. now apply moved_last.
    - exists u. split; [exact Eu|]. split; [exact Su|]. intros a i La Li. apply Ru. apply moved_sym. now apply moved_last.
  Qed.

  (** Axes between the two parts go to the front (213-217). *)
  Lemma moved_middle m r i : length r = m -> length i = n ->
    moved (m + n) (seq (length O) m ++ seq (m + length O) k) (seq 0 m ++ map (fun a => (m + a)%nat) T) (along O i ++ r ++ along T i) (r ++ i).
  Proof.
    intros Lr Li. pose proof (O_length n T TS TB) as LO. split; [rewrite !app_length, !along_length; lia|]. split; [rewrite !app_length; lia|]. split.
    - rewrite !read_app. f_equal.
      + rewrite (read_prefix r i m Lr). symmetry. apply read_middle; auto using along_length.
      + rewrite (read_shift m T r i Lr). symmetry. rewrite app_assoc.
        replace (m + length O)%nat with (length (along O i ++ r)) by (rewrite app_length, along_length; lia).
        replace k with (length (along T i)) at 1 by apply along_length. apply read_seq_app.
    - transitivity (along O i).
      + transitivity (spec_read (map (fun a => (m + a)%nat) O) (r ++ i)); [|now apply read_shift]. f_equal. unfold kept.
        rewrite seq_app, filter_app. rewrite (filter_all_false _ (seq 0 m)); [|intros x Hx; apply negb_false_iff, mem_iff, in_app_iff; now left].
        cbn [app plus]. rewrite <- (shift_seq m n). rewrite filter_map. f_equal. apply filter_ext_in. intros x _. f_equal. change (existsb (Nat.eqb x) T) with (mem x T). apply eq_true_iff_eq. rewrite !mem_iff, in_app_iff, in_map_iff, in_seq.
        split; [intros [I|(y & E & I)]; [lia|replace x with y by lia; exact I]|]. intros I. right. now exists x.
      + symmetry. replace (m + n)%nat with (length O + (m + k))%nat by lia. rewrite kept_prefix; [apply read_prefix, along_length| |].
        * intros x Hx. apply in_app_iff. rewrite !in_seq. lia.
        * intros x Hx. apply in_app_iff in Hx. rewrite !in_seq in Hx. lia.
  Qed.
  Lemma move_middle (t : tensor R) m r s zl tl : shape t = along O s ++ r ++ along T s -> length r = m -> length s = n -> zl = length O ->
    py_indices (m + n) tl = Ok (map (fun a => (m + a)%nat) T) ->
    exists u, np_moveaxis (zs (seq zl m) ++ last_axes k) (zs (seq 0 m) ++ tl) t = Ok u /\ shape u = r ++ s
      /\ forall a i, length a = m -> length i = n -> entry u (a ++ i) = entry t (along O i ++ a ++ along T i).
  Proof.
    intros S Lr Ls -> E. pose proof (O_length n T TS TB) as LO. assert (D : ndim t = (m + n)%nat) by (unfold ndim; rewrite S, !app_length, !along_length; lia).
    destruct (np_moveaxis_moved t (m + n) (zs (seq (length O) m) ++ last_axes k) (zs (seq 0 m) ++ tl)
      (seq (length O) m ++ seq (m + length O) k) (seq 0 m ++ map (fun a => (m + a)%nat) T) (along O s ++ r ++ along T s) (r ++ s)) as (u & Eu & Su & Ru); auto.
    - apply indices_app; [apply indices_zs; intros a Ha; apply in_seq in Ha; lia|]. replace (m + n)%nat with (m + length O + k)%nat by lia. apply indices_last.
    - apply indices_app; [apply indices_zs; intros a Ha; apply in_seq in Ha; lia|exact E].
    - now rewrite !app_length, map_length, !seq_length.
    - apply NoDup_app_intro; auto using seq_NoDup. intros x I J. rewrite in_seq in *. lia.
    - apply NoDup_app_intro; auto using seq_NoDup, shift_NoDup. intros x I J. rewrite in_seq in I. apply shifted_T in J. lia.
    - intros x Hx. apply in_app_iff in Hx. rewrite !in_seq in Hx. lia.
    - intros x Hx. apply in_app_iff in Hx. rewrite in_seq in Hx. destruct Hx as [Hx|Hx]; [lia|apply shifted_T in Hx; lia].
    - now apply moved_middle.
    - exists u. split; [exact Eu|]. split; [exact Su|]. intros a i La Li. apply Ru. now apply moved_middle.
  Qed.
End Moves.

(** * [tensordot] *)
Lemma free_kept n c : free_axes n c [] = kept c n.
Proof. unfold free_axes, kept. apply filter_ext. intros a. apply andb_true_r. Qed.
Lemma dot_at_left c m nf k a b : length a = length (kept c m) -> dot_at true c [] m nf k (a ++ b) = merged c m k a.
Proof.
  intros La. unfold dot_at, merged. apply map_ext_in. intros x Hx. apply in_seq in Hx. destruct (mem x c) eqn:M; [reflexivity|]. apply mem_false in M.
  unfold dot_pos. cbn [mem existsb length plus]. rewrite free_kept. apply app_nth1. rewrite La. apply index_of_In_lt, kept_In. split; [lia|auto].
Qed.
Lemma dot_at_right c m k a b : dot_at false c [] m (length a) k (a ++ b) = merged c m k b.
Proof.
  unfold dot_at, merged. apply map_ext_in. intros x Hx. destruct (mem x c); [reflexivity|].
  unfold dot_pos. cbn [mem existsb length plus]. rewrite free_kept, app_nth2 by lia. f_equal. lia.
Qed.
Lemma tensordot_read (t u : tensor R) zc zc' c c' : py_indices (ndim t) zc = Ok c -> py_indices (ndim u) zc' = Ok c' ->
  NoDup c -> NoDup c' -> (forall a, In a c -> (a < ndim t)%nat) -> (forall a, In a c' -> (a < ndim u)%nat) ->
  length c = length c' -> along c (shape t) = along c' (shape u) ->
  exists o, tensordot t u zc zc' = Ok o /\ shape o = along (others c (ndim t)) (shape t) ++ along (others c' (ndim u)) (shape u)
    /\ forall a b, in_range (along (others c (ndim t)) (shape t)) a -> in_range (along (others c' (ndim u)) (shape u)) b ->
       entry o (a ++ b) = tsum (along c (shape t)) (fun k => entry t (merged c (ndim t) k a) * entry u (merged c' (ndim u) k b)).
Proof.
  intros E E' N N' B B' L K. unfold tensordot. rewrite E, E'. cbn [bind].
  destruct (lax_dot_eval c c' [] [] (along c (shape t)) (shape t) (shape u) (along (others c (ndim t)) (shape t) ++ along (others c' (ndim u)) (shape u)) t u) as (o & Eo & So & Ro); auto.
  { split; [now rewrite app_nil_r|]. split; [now rewrite app_nil_r|]. split; [exact L|]. split; [reflexivity|].
    split; [now rewrite app_nil_r|]. split; [now rewrite app_nil_r|]. split; [reflexivity|]. split; [now symmetry|]. split; [reflexivity|].
    cbv zeta. cbn [map app]. rewrite !free_kept. reflexivity. }
  exists o. split; [exact Eo|]. split; [exact So|]. intros a b Ha Hb. rewrite Ro by now apply in_range_app. apply tsum_ext. intros k _.
  pose proof (in_range_length _ _ Ha) as La. rewrite along_length in La.
  f_equal; f_equal.
  - now apply dot_at_left.
  - rewrite free_kept. change (kept c (length (shape t))) with (others c (ndim t)). rewrite <- La. apply dot_at_right.
Qed.

(** * Broadcasting *)
Lemma np_pad_same {A} n (x : tensor A) : ndim x = n -> np_pad n x = mkT (shape x) (entry x).
Proof. intros E. unfold np_pad. now rewrite E, Nat.sub_diag. Qed.
Lemma clip_same s i : in_range s i -> clip s i = i.
Proof. induction 1 as [|x a i s H _ IH]; [reflexivity|]. cbn. change (map _ (combine s i)) with (clip s i). rewrite IH. destruct a as [|[|a]]; cbn; f_equal; lia. Qed.
Lemma repeat_ones_clip m : forall r, length r = m -> clip (repeat 1%nat m) r = repeat 0%nat m.
Proof. induction m as [|m IH]; intros [|a r] L; try discriminate; [reflexivity|]. cbn. f_equal. apply IH. now injection L. Qed.
Lemma combine_app_eq {A B} : forall (a : list A) (b : list B) a' b', length a = length b -> combine (a ++ a') (b ++ b') = combine a b ++ combine a' b'.
Proof. induction a as [|x a IH]; intros [|y b] a' b' L; try discriminate; auto. cbn. f_equal. apply IH. now injection L. Qed.
Lemma clip_app s s' i i' : length s = length i -> clip (s ++ s') (i ++ i') = clip s i ++ clip s' i'.
Proof. intros L. unfold clip. rewrite combine_app_eq by auto. apply map_app. Qed.

Definition fits1 (a b : nat) : Prop := a = 1%nat \/ a = b.
Lemma fits_compat s s' : Forall2 fits1 s s' -> bcompat s s' = true /\ bcompat s' s = true /\ bshape s s' = s' /\ bshape s' s = s'.
Proof.
  unfold bcompat, bshape. induction 1 as [|a b s s' F _ (IH1 & IH2 & IH3 & IH4)]; [repeat split; reflexivity|].
  apply andb_true_iff in IH1, IH2. destruct IH1 as [L1 IH1], IH2 as [L2 IH2]. apply Nat.eqb_eq in L1, L2.
  cbn [combine forallb map fst snd length]. rewrite IH1, IH2, IH3, IH4, !L1, !Nat.eqb_refl.
  destruct F as [->| ->].
  - cbn [Nat.eqb]. rewrite !orb_true_r. cbn [andb orb]. repeat split; auto. destruct (Nat.eqb_spec b 1); congruence.
  - rewrite Nat.eqb_refl. cbn [andb orb]. destruct (Nat.eqb_spec b 1); repeat split; congruence.
Qed.
Lemma broadcasts_fits s s' : broadcasts s s' -> Forall2 fits1 (repeat 1%nat (length s' - length s) ++ s) s'.
Proof.
  intros (L & H). rewrite <- (firstn_skipn (length s' - length s) s') at 2. apply Forall2_app.
  - assert (E : length (firstn (length s' - length s) s') = (length s' - length s)%nat) by (rewrite firstn_length; lia).
    rewrite <- E at 1. generalize (firstn (length s' - length s) s'). intros l. induction l; constructor; auto. now left.
  - assert (E : length (skipn (length s' - length s) s') = length s) by (rewrite skipn_length; lia).
    assert (F : forall a, (a < length s)%nat -> fits1 (nth a s 0%nat) (nth a (skipn (length s' - length s) s') 0%nat)).
    { intros a Ha. rewrite nth_skipn_add. apply H. exact Ha. }
    revert E F. generalize (skipn (length s' - length s) s'). clear. induction s as [|x s IH]; intros [|y l] E F; try discriminate; constructor.
    + apply (F 0%nat). cbn. lia.
    + apply IH; [now injection E|]. intros a Ha. apply (F (S a)). cbn. lia.
Qed.
Lemma value_clip {A} (x : tensor A) r j : length j = ndim x -> value x (r ++ j) = entry x (clip (shape x) j).
Proof.
  intros L. unfold value. f_equal. rewrite app_length, L. replace (length r + ndim x - ndim x)%nat with (length r) by lia.
  unfold ndim in *. revert L. generalize (shape x). intros s. revert j. 
  assert (G : forall j, length j = length s -> forall r, map (fun a => if (nth a s 0 =? 1)%nat then 0%nat else nth (length r + a) (r ++ j) 0%nat) (seq 0 (length s)) = clip s j).
  { induction s as [|a s IH]; intros [|y j] L r0; try discriminate; [reflexivity|]. cbn [length seq map nth]. cbn [clip combine map fst snd].
    rewrite app_nth2 by lia. replace (length r0 + 0 - length r0)%nat with 0%nat by lia. cbn [nth]. unfold clip. cbn [combine map fst snd]. f_equal.
    rewrite <- seq_shift, map_map. fold (clip s j). rewrite <- (IH j) with (r := r0 ++ [y]) by now injection L. apply map_ext. intros b. cbn [nth].
    rewrite <- app_assoc. cbn [app]. rewrite app_length. cbn [length]. now replace (length r0 + S b)%nat with (length r0 + 1 + b)%nat by lia. }
  intros j L. now apply G.
Qed.
Lemma pad_value {A} (x : tensor A) s i : broadcasts (shape x) s -> in_range s i ->
  entry (np_pad (length s) x) (clip (shape (np_pad (length s) x)) i) = value x i.
Proof.
  intros (L & _) Hi. pose proof (in_range_length _ _ Hi) as Li. cbn [np_pad shape entry]. fold (ndim x) in L.
  rewrite <- (firstn_skipn (length s - ndim x) i). rewrite clip_app by (rewrite repeat_length, firstn_length; lia).
  rewrite value_clip by (rewrite skipn_length; lia). f_equal.
  rewrite repeat_ones_clip by (rewrite firstn_length; lia). rewrite skipn_app, repeat_length, Nat.sub_diag. cbn [skipn].
  rewrite skipn_all2 by (rewrite repeat_length; lia). reflexivity.
Qed.

Lemma np_op_left op (x y : tensor R) s : broadcasts (shape x) s -> shape y = s ->
  exists u, np_op op x y = Ok u /\ shape u = s /\ forall i, in_range s i -> entry u i = op (value x i) (entry y i).
Proof.
  intros B S. pose proof B as (L & _). unfold np_op. replace (Nat.max (ndim x) (ndim y)) with (length s) by (unfold ndim; rewrite S; lia).
  destruct (fits_compat _ _ (broadcasts_fits _ _ B)) as (C & _ & E & _).
  rewrite (np_pad_same (length s) y) by (unfold ndim; now rewrite S).
  unfold broadcast2. cbn [shape entry]. rewrite S. change (repeat 1%nat (length s - length (shape x)) ++ shape x) with (shape (np_pad (length s) x)) in C, E.
  rewrite C, E. eexists. split; [reflexivity|]. split; [reflexivity|]. intros i Hi. cbn [entry]. rewrite pad_value by auto. now rewrite clip_same.
Qed.
Lemma np_op_right op (x y : tensor R) s : broadcasts (shape x) s -> shape y = s ->
  exists u, np_op op y x = Ok u /\ shape u = s /\ forall i, in_range s i -> entry u i = op (entry y i) (value x i).
Proof.
  intros B S. pose proof B as (L & _). unfold np_op. replace (Nat.max (ndim y) (ndim x)) with (length s) by (unfold ndim; rewrite S; lia).
  destruct (fits_compat _ _ (broadcasts_fits _ _ B)) as (_ & C & _ & E).
  rewrite (np_pad_same (length s) y) by (unfold ndim; now rewrite S).
  unfold broadcast2. cbn [shape entry]. rewrite S. change (repeat 1%nat (length s - length (shape x)) ++ shape x) with (shape (np_pad (length s) x)) in C, E.
  rewrite C, E. eexists. split; [reflexivity|]. split; [reflexivity|]. intros i Hi. cbn [entry]. rewrite pad_value by auto. now rewrite clip_same.
Qed.
(** [expand_dims] in front, where the times are. *)
Lemma expand_broadcasts {A} (x : tensor A) k ts s : length ts = k -> broadcasts (shape x) s -> broadcasts (shape (expand_front k x)) (ts ++ s).
Proof.
  intros Lt (L & H). cbn [expand_front shape]. split; [rewrite !app_length, repeat_length; lia|]. intros a. rewrite !app_length, repeat_length. intros Ha.
  destruct (Nat.lt_ge_cases a k).
  - left. rewrite app_nth1 by (rewrite repeat_length; lia). apply (repeat_spec k). apply nth_In. now rewrite repeat_length.
  - rewrite app_nth2 by (rewrite repeat_length; lia). rewrite repeat_length. rewrite app_nth2 by lia.
    destruct (H (a - k)%nat) as [Q|Q]; [lia|now left|right]. rewrite Q. f_equal. lia.
Qed.
Lemma expand_value {A} (x : tensor A) k tau i : length tau = k -> (ndim x <= length i)%nat -> value (expand_front k x) (tau ++ i) = value x i.
Proof.
  intros Lt L. unfold ndim in L. rewrite <- (firstn_skipn (length i - length (shape x)) i) at 1 2.
  assert (Lj : length (skipn (length i - length (shape x)) i) = length (shape x)) by (rewrite skipn_length; lia).
  assert (Lf : length (firstn (length i - length (shape x)) i) = (length i - length (shape x))%nat) by (rewrite firstn_length; lia).
  revert Lj Lf. generalize (skipn (length i - length (shape x)) i) (firstn (length i - length (shape x)) i). intros j r Lj Lf. rewrite (value_clip x r j Lj).
  rewrite app_assoc. set (w := tau ++ r). rewrite <- (firstn_skipn (length w - k) w). rewrite <- app_assoc.
  assert (Lw : length (skipn (length w - k) w) = k) by (rewrite skipn_length; unfold w; rewrite app_length; lia).
  rewrite value_clip by (unfold ndim; cbn [expand_front shape]; rewrite !app_length, repeat_length; lia).
  cbn [expand_front shape entry]. rewrite clip_app by (rewrite repeat_length; lia). rewrite repeat_ones_clip by auto.
  f_equal. rewrite skipn_app, repeat_length, Nat.sub_diag. cbn [skipn]. rewrite skipn_all2 by (rewrite repeat_length; lia). reflexivity.
Qed.

(** * [reshape] *)
Lemma reshape_at (t : tensor R) sh s : shape t = s -> size s = size sh -> exists u, reshape sh t = Ok u /\ shape u = sh
  /\ forall i j, in_range s j -> ravel sh i = ravel s j -> entry u i = entry t j.
Proof.
  intros E Q. destruct (reshape_ok sh t) as (u & Eu); [now rewrite E|]. exists u. split; [exact Eu|]. split; [exact (reshape_shape _ _ _ Eu)|].
  intros i j Hj R0. apply (reshape_entry sh t u i j Eu); now rewrite E.
Qed.
