(** Indices, structures and the evaluation of Jacobians: common facts for the rules of structured
    derivatives. *)
From Coq Require Import Reals ZArith List Arith Lia Lra Bool.
From Verif Require Import Base Tensor Reshape Model_Net Model_Predict Model_Empirical Model_Structure Model_Aggregate Model_Structured Model_Lax Model_Rules
  Spec_Structure Spec_Structured Spec_Rules Proof_Linalg Proof_Tsum Proof_Structure Proof_Structured Proof_Structured2 Proof_Structured3 Proof_Structured4.
Import ListNotations.
Local Open Scope R_scope.

(** * Indices *)

Lemma zeroed_length axes i : length (zeroed axes i) = length i.
Proof. unfold zeroed. now rewrite map_length, seq_length. Qed.
Lemma zeroed_nth axes i a : nth a (zeroed axes i) 0%nat = if mem a axes then 0%nat else nth a i 0%nat.
Proof.
  destruct (lt_dec a (length i)) as [H|H].
  - unfold zeroed. rewrite (nth_map_in _ _ _ _ 0%nat) by (rewrite seq_length; auto). now rewrite seq_nth by auto.
  - rewrite !nth_overflow by (rewrite ?zeroed_length; lia). now destruct (mem a axes).
Qed.
Lemma trimmed_len axes sh : length (trimmed axes sh) = length sh.
Proof. unfold trimmed. now rewrite map_length, seq_length. Qed.
Lemma trimmed_at axes sh a : (a < length sh)%nat -> nth a (trimmed axes sh) 0%nat = if mem a axes then 1%nat else nth a sh 0%nat.
Proof. intros H. unfold trimmed. rewrite (nth_map_in _ _ _ _ 0%nat) by (rewrite seq_length; auto). now rewrite seq_nth by auto. Qed.
Lemma list_nth_eq (l m : list nat) : length l = length m -> (forall a, (a < length l)%nat -> nth a l 0%nat = nth a m 0%nat) -> l = m.
Proof. intros L H. apply (nth_ext _ _ 0%nat 0%nat); auto. Qed.
Lemma zeroed_nil i : zeroed [] i = i.
Proof. apply list_nth_eq; [apply zeroed_length|]. intros a _. now rewrite zeroed_nth. Qed.
Lemma trimmed_nil sh : trimmed [] sh = sh.
Proof. apply list_nth_eq; [apply trimmed_len|]. rewrite trimmed_len. intros a H. now rewrite trimmed_at. Qed.
Lemma zeroed_in_range axes sh i : in_range sh i -> in_range (trimmed axes sh) (zeroed axes i).
Proof.
  intros H. pose proof (in_range_length _ _ H) as L. apply in_range_nth. split; [now rewrite zeroed_length, trimmed_len|].
  intros a Ha. rewrite trimmed_len in Ha. rewrite zeroed_nth, trimmed_at by auto. destruct (mem a axes); [lia|].
  now apply in_range_nth.
Qed.
Lemma trimmed_trimmed a b sh : trimmed a (trimmed b sh) = trimmed (a ++ b) sh.
Proof.
  apply list_nth_eq; [now rewrite !trimmed_len|]. rewrite !trimmed_len. intros k Hk. rewrite !trimmed_at by (rewrite ?trimmed_len; auto).
  rewrite mem_app. destruct (mem k a); auto.
Qed.
Lemma trimmed_ext a b sh : (forall k, (k < length sh)%nat -> nth k sh 0%nat = 1%nat \/ (In k a <-> In k b)) -> trimmed a sh = trimmed b sh.
Proof.
  intros H. apply list_nth_eq; [now rewrite !trimmed_len|]. rewrite !trimmed_len. intros k Hk. rewrite !trimmed_at by auto.
  destruct (H k Hk) as [E|E]; [destruct (mem k a), (mem k b); lia|].
  destruct (mem k a) eqn:A, (mem k b) eqn:B; auto.
  - apply mem_In, E, mem_In in A. congruence.
  - apply mem_In, E, mem_In in B. congruence.
Qed.

Lemma same_at_spec ps y w : same_at ps y w = true <-> forall a b, In (a, b) ps -> nth a y 0%nat = nth b w 0%nat.
Proof.
  unfold same_at. rewrite forallb_forall. split.
  - intros H a b I. apply H in I. now apply Nat.eqb_eq in I.
  - intros H [a b] I. apply Nat.eqb_eq, (H _ _ I).
Qed.
Lemma bool_eq_iff (a b : bool) : (a = true <-> b = true) -> a = b.
Proof. destruct a, b; intuition. Qed.

Lemma mem_iff x l : mem x l = true <-> In x l.
Proof. apply mem_In. Qed.

(** [update] *)
Lemma update_nth_error {A} (l : list A) i a : (i < length l)%nat -> nth_error (update l i a) i = Some a.
Proof. revert i. induction l as [|x l IH]; intros [|i] H; cbn in *; try lia; auto. apply IH. lia. Qed.
Lemma update_nth_error_other {A} (l : list A) i j a : i <> j -> nth_error (update l i a) j = nth_error l j.
Proof. revert i j. induction l as [|x l IH]; intros [|i] [|j] H; cbn; try easy; try congruence. apply IH. lia. Qed.
Lemma update_same {A} (l : list A) i a : nth_error l i = Some a -> update l i a = l.
Proof. revert i. induction l as [|x l IH]; intros [|i] H; cbn in *; try easy; [congruence|]. f_equal. auto. Qed.
Lemma update_update {A} (l : list A) i a b : update (update l i a) i b = update l i b.
Proof. revert i. induction l as [|x l IH]; intros [|i]; cbn; auto. f_equal. auto. Qed.
Lemma update_map {A B} (f : A -> B) l i a : map f (update l i a) = update (map f l) i (f a).
Proof. revert i. induction l as [|x l IH]; intros [|i]; cbn; auto. f_equal. auto. Qed.

(** * Structures *)

Lemma filter_combine_fst {A B} (p : B -> bool) : forall (l : list A) (k : list B), length l = length k ->
  filter_by p l k = Ok (map fst (filter (fun x => p (snd x)) (combine l k))).
Proof.
  induction l as [|x l IH]; intros [|y k] L; cbn in L |- *; try easy. rewrite IH by lia. cbn. now destruct (p y).
Qed.
Lemma filter_combine_snd {A B} (p : B -> bool) : forall (l : list A) (k : list B), length l = length k ->
  filter p k = map snd (filter (fun x => p (snd x)) (combine l k)).
Proof.
  induction l as [|x l IH]; intros [|y k] L; cbn in L |- *; try easy. rewrite (IH k) by lia. now destruct (p y).
Qed.
Lemma combine_split_id {A B} (l : list (A * B)) : combine (map fst l) (map snd l) = l.
Proof. induction l as [|[a b] l IH]; cbn; congruence. Qed.

(** The structure kept after [&]: some of the traced pairs, diagonal pairs and broadcast axes. *)
Definition restrict (t d b : nat -> bool) (s : structure) : structure :=
  let P := filter (fun x => t (snd x)) (combine (out_trace s) (in_trace s)) in
  let D := filter (fun x => d (fst x)) (combine (out_diagonal s) (in_diagonal s)) in
  mkStructure (map fst P) (map snd P) (in_trace_idxs s) (map fst D) (map snd D)
              (filter b (out_broadcast s)) (out_broadcast_idxs s) (filter b (out_broadcast s)) (in_broadcast_idx s).

Lemma structure_and_restrict s c : length (in_trace s) = length (out_trace s) -> length (in_diagonal s) = length (out_diagonal s) ->
  length (in_trace c) = length (out_trace c) ->
  structure_and s c = Ok (restrict (fun i => mem i (in_trace c)) (fun i => mem i (out_diagonal c)) (fun i => mem i (out_broadcast c)) s).
Proof.
  intros L1 L2 L3. unfold structure_and. rewrite L1, L3, !Nat.eqb_refl. cbn [negb].
  rewrite (filter_combine_fst _ (out_trace s) (in_trace s)) by auto. cbn [bind].
  rewrite (filter_combine_snd _ (out_trace s) (in_trace s)) by auto. rewrite !map_length, Nat.eqb_refl. cbn [negb].
  rewrite (filter_combine_fst _ (in_diagonal s) (out_diagonal s)) by auto. cbn [bind]. unfold restrict. f_equal. f_equal.
  - clear -L2. revert L2. generalize (in_diagonal s). induction (out_diagonal s) as [|x l IH]; intros [|y k] L; cbn in *; try easy.
    rewrite (IH k) by lia. now destruct (mem x (out_diagonal c)).
  - clear -L2. revert L2. generalize (in_diagonal s). induction (out_diagonal s) as [|x l IH]; intros [|y k] L; cbn in *; try easy.
    destruct (mem x (out_diagonal c)); cbn; now rewrite (IH k) by lia.
Qed.

Lemma restrict_pairs t d b s : combine (out_trace (restrict t d b s)) (in_trace (restrict t d b s)) = filter (fun x => t (snd x)) (combine (out_trace s) (in_trace s)).
Proof. apply combine_split_id. Qed.

(** * Gathers *)

(** Output [y] reads the input at [src y], if anywhere, times [c y]. *)
Definition gather (src : list nat -> option (list nat)) (c : list nat -> R) (y w : list nat) : R :=
  match src y with Some v => if list_eq_dec Nat.eq_dec v w then c y else 0 | None => 0 end.

Lemma tsum_gather ws v c (f : list nat -> R) : in_range ws v ->
  tsum ws (fun w => (if list_eq_dec Nat.eq_dec v w then c else 0) * f w) = c * f v.
Proof.
  intros H. rewrite <- (tsum_one_hot ws v f) by auto. rewrite <- tsum_scale. apply tsum_ext. intros k _.
  destruct (list_eq_dec Nat.eq_dec v k), (list_eq_dec Nat.eq_dec k v); try congruence; ring.
Qed.

Lemma gather_affine p idx xs ws ys src c base :
  (forall y v, in_range ys y -> src y = Some v -> in_range ws v) ->
  (forall t, shape t = ws -> exists o, lax_eval p (update xs idx t) = Ok o /\ shape o = ys /\
     forall y, in_range ys y -> entry o y = base y + match src y with Some v => c y * entry t v | None => 0 end) ->
  affine p idx xs ws ys (gather src c).
Proof.
  intros R H. exists base. intros t Ht. destruct (H t Ht) as (o & E & S & V). exists o. repeat split; auto.
  intros y Hy. rewrite V by auto. f_equal. unfold gather. destruct (src y) as [v|] eqn:Ey.
  - symmetry. apply tsum_gather. eauto.
  - symmetry. apply tsum_zero. intros. ring.
Qed.

Lemma gather_structure (P : list (nat * nat)) (zy : list nat) src src' c c' y w :
  (forall a b, In (a, b) P -> forall v, src y = Some v -> nth b v 0%nat = nth a y 0%nat) ->
  (forall v, src y = Some v -> length v = length w) ->
  src' (zeroed zy y) = option_map (zeroed (map snd P)) (src y) -> c' (zeroed zy y) = c y ->
  gather src c y w = if same_at P y w then gather src' c' (zeroed zy y) (zeroed (map snd P) w) else 0.
Proof.
  intros HP HL HS HC. unfold gather. rewrite HS, HC. destruct (src y) as [v|]; [|now destruct (same_at P y w)].
  cbn [option_map]. specialize (HL v eq_refl). destruct (list_eq_dec Nat.eq_dec v w) as [<-|N].
  - replace (same_at P y v) with true. { now destruct (list_eq_dec Nat.eq_dec (zeroed (map snd P) v) (zeroed (map snd P) v)). }
    symmetry. apply same_at_spec. intros a b I. now rewrite (HP a b I v eq_refl).
  - destruct (same_at P y w) eqn:S; auto. destruct (list_eq_dec Nat.eq_dec (zeroed (map snd P) v) (zeroed (map snd P) w)) as [E|]; auto.
    exfalso. apply N. apply list_nth_eq; auto. intros k Hk. destruct (mem k (map snd P)) eqn:M.
    + apply mem_iff, in_map_iff in M. destruct M as ((a & b) & <- & I). cbn [snd]. rewrite (HP a b I v eq_refl). now apply (proj1 (same_at_spec P y w) S).
    + assert (Q : nth k (zeroed (map snd P) v) 0%nat = nth k (zeroed (map snd P) w) 0%nat) by now rewrite E.
      now rewrite !zeroed_nth, M in Q.
Qed.

(** * [_get_jacobian] *)

Lemma affine_jvp p idx xs ws ys J y w : affine p idx xs ws ys J -> in_range ys y -> in_range ws w -> jvp_basis p idx xs ws y w = J y w.
Proof.
  intros (base & H) Hy Hw. unfold jvp_basis.
  destruct (H (one_hot ws w) eq_refl) as (o1 & -> & _ & V1). destruct (H (zeros ws) eq_refl) as (o2 & -> & _ & V2).
  rewrite V1, V2 by auto. replace (tsum ws (fun w0 => J y w0 * entry (zeros ws) w0)) with 0.
  2:{ symmetry. apply tsum_zero. intros. cbn. ring. }
  rewrite (tsum_ext ws _ (fun k => (if list_eq_dec Nat.eq_dec k w then 1 else 0) * J y k)) by (intros; cbn; ring).
  rewrite tsum_one_hot by auto. ring.
Qed.

Lemma ravel_lt_size sh i : in_range sh i -> (ravel sh i < size sh)%nat.
Proof. apply ravel_lt. Qed.

Lemma unravel_in_range : forall sh k, (k < size sh)%nat -> in_range sh (unravel sh k).
Proof.
  induction sh as [|s sh IH]; intros k H; cbn in *; [constructor|]. assert (0 < size sh)%nat by nia. constructor.
  - apply Nat.div_lt_upper_bound; lia.
  - apply IH. apply Nat.mod_upper_bound. lia.
Qed.

(** What a rule must compute, in the coordinates of the use: [cts] is the shape of the output, up to
    a reshape from [ys]. *)
Definition rule_ok (p : prim) (idx : nat) (vs : list value) (ws cts : list nat) (J : list nat -> list nat -> R) : Prop :=
  match jacobian_rule p idx vs cts with
  | Some r => exists j, r = Ok j /\ shape j = cts ++ ws /\ forall y w, in_range cts y -> in_range ws w -> entry j (y ++ w) = J y w
  | None => True
  end.

Lemma get_jacobian_ok jr p idx vs v ws cts ys J J' : nth_error vs idx = Some v -> vshape v = ws ->
  affine p idx (map filled vs) ws ys J' -> size ys = size cts ->
  (forall y w, in_range cts y -> in_range ws w -> J' (unravel ys (ravel cts y)) w = J y w) ->
  rule_ok p idx vs ws cts J ->
  exists j, _get_jacobian jr p cts vs idx = Ok j /\ shape j = cts ++ ws /\ forall y w, in_range cts y -> in_range ws w -> entry j (y ++ w) = J y w.
Proof.
  intros Hv Hws Ha Hs HJ Hr. unfold _get_jacobian, get_item. rewrite Hv. cbn [bind]. rewrite Hws.
  pose proof Ha as (base & H). destruct (H (zeros ws) eq_refl) as (y0 & E0 & S0 & _). rewrite E0. cbn [bind]. rewrite S0, Hs, Nat.eqb_refl.
  set (van := mkT (cts ++ ws) _).
  assert (V : shape van = cts ++ ws /\ forall y w, in_range cts y -> in_range ws w -> entry van (y ++ w) = J y w).
  { split; auto. intros y w Hy Hw. cbn. pose proof (in_range_length _ _ Hy) as L.
    rewrite <- L, firstn_app, firstn_all, Nat.sub_diag, firstn_O, app_nil_r.
    rewrite skipn_app, skipn_all, Nat.sub_diag. cbn [skipn app]. rewrite <- HJ by auto.
    apply (affine_jvp p idx _ ws ys J'); auto. apply unravel_in_range. rewrite Hs. now apply ravel_lt. }
  unfold rule_ok in Hr. destruct (jacobian_rule p idx vs cts) as [r|].
  - destruct Hr as (j & -> & Sj & Vj). destruct jr; cbn [bind].
    + destruct (list_eq_dec Nat.eq_dec (shape j) (cts ++ ws)); [eauto|congruence].
    + destruct V. destruct (list_eq_dec Nat.eq_dec (shape van) (cts ++ ws)); [eauto|congruence].
  - destruct V. cbn [bind]. destruct (list_eq_dec Nat.eq_dec (shape van) (cts ++ ws)); [eauto|congruence].
Qed.

(** * Identity matrices *)

Lemma ravel_inj sh i j : in_range sh i -> in_range sh j -> ravel sh i = ravel sh j -> i = j.
Proof. intros Hi Hj E. rewrite <- (unravel_ravel sh i), <- (unravel_ravel sh j) by auto. now rewrite E. Qed.

Lemma reshape_eye {A} n s1 s2 (e : tensor A) : shape e = [n; n] -> size s1 = n -> size s2 = n ->
  exists j, reshape (s1 ++ s2) e = Ok j /\ shape j = s1 ++ s2 /\
    forall y w, in_range s1 y -> in_range s2 w -> entry j (y ++ w) = entry e [ravel s1 y; ravel s2 w].
Proof.
  intros S E1 E2. destruct (reshape_ok (s1 ++ s2) e) as (j & Hj). { rewrite S, size_app. cbn. nia. }
  exists j. split; auto. split. { eapply reshape_shape; eauto. }
  intros y w Hy Hw. apply (reshape_entry (s1 ++ s2) e); auto.
  - rewrite S. pose proof (ravel_lt _ _ Hy). pose proof (ravel_lt _ _ Hw). repeat constructor; lia.
  - rewrite S, ravel_app by now apply in_range_length. cbn. rewrite E2. lia.
Qed.

Lemma eye_reshaped s1 s2 : size s1 = size s2 -> exists j, reshape (s1 ++ s2) (eye (size s1)) = Ok j /\ shape j = s1 ++ s2 /\
  forall y w, in_range s1 y -> in_range s2 w -> entry j (y ++ w) = if (ravel s1 y =? ravel s2 w)%nat then 1 else 0.
Proof. intros E. destruct (reshape_eye (size s1) s1 s2 (eye (size s1))) as (j & H); auto. exists j. exact H. Qed.

Lemma eye_square s : exists j, reshape (s ++ s) (eye (size s)) = Ok j /\ shape j = s ++ s /\
  forall y w, in_range s y -> in_range s w -> entry j (y ++ w) = if list_eq_dec Nat.eq_dec y w then 1 else 0.
Proof.
  destruct (eye_reshaped s s eq_refl) as (j & E & S & V). exists j. repeat split; auto. intros y w Hy Hw. rewrite V by auto.
  destruct (list_eq_dec Nat.eq_dec y w) as [->|N]; [now rewrite Nat.eqb_refl|].
  destruct (Nat.eqb_spec (ravel s y) (ravel s w)); auto. exfalso. apply N. eapply ravel_inj; eauto.
Qed.
Lemma eye_like_ok s1 s2 : size s1 = size s2 -> exists j, _eye_like s1 s2 = Ok j /\ shape j = s1 ++ s2 /\
  forall y w, in_range s1 y -> in_range s2 w -> entry j (y ++ w) = if (ravel s1 y =? ravel s2 w)%nat then 1 else 0.
Proof. intros E. unfold _eye_like. rewrite E, Nat.eqb_refl. rewrite <- E. now apply eye_reshaped. Qed.
