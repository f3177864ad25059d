(** Structures shared by the uses of a parameter. *)
From Coq Require Import Reals ZArith List Arith Lia Lra Bool Permutation Sorted.
From Verif Require Import Base Tensor Reshape Model_Net Model_Predict Model_Empirical Model_Structure Model_Aggregate Model_Structured Model_Lax Model_Rules
  Spec_Structure Spec_Structured Spec_Rules Proof_Linalg Proof_Tsum Proof_Einsum Proof_Structure Proof_Structured Proof_Structured2 Proof_Structured3 Proof_Structured4 Proof_Rules Proof_Rules2 Proof_Rules3 Proof_Rules4 Proof_Rules5 Proof_Rules6 Proof_Rules7 Proof_Rules8 Proof_Rules9 Proof_Rules10 Proof_Rules11 Proof_Rules12 Proof_Rules13 Proof_Rules14 Proof_Rules15 Proof_Rules16.
From Verif Require Proof_MonteCarlo.
Import ListNotations.
Local Open Scope nat_scope.

(** * Facts of every rule *)

Lemma cons_sorted i l : strictly_increasing l -> (forall k, In k l -> i < k) -> strictly_increasing (i :: l).
Proof. intros S H. constructor; auto. now apply Forall_forall. Qed.

Lemma add_loop_facts : forall ws os i tr br, add_loop i ws os = Ok (tr, br) ->
  strictly_increasing tr /\ (forall k, In k tr -> i <= k) /\ forall b, In b br -> i <= b /\ nth (b - i) ws 0 = 1.
Proof.
  induction ws as [|a ws IH]; intros [|b os] i tr br E; cbn [add_loop] in E; try easy.
  - injection E as <- <-. split; [constructor|]. split; intros k [].
  - destruct (add_loop (S i) ws os) as [[tr' br']|] eqn:E'; [|easy]. cbn [bind] in E. destruct (IH _ _ _ _ E') as (St & H1 & H2).
    assert (H2' : forall k, In k br' -> i <= k /\ nth (k - i) (a :: ws) 0 = 1). { intros k I. destruct (H2 k I) as [Q1 Q2]. split; [lia|]. replace (k - i) with (S (k - S i)) by lia. exact Q2. }
    destruct ((b =? a) || (b =? 1)).
    + injection E as <- <-. split; [apply cons_sorted; auto; intros k I; apply H1 in I; lia|]. split; auto. intros k [->|I]; auto. apply H1 in I. lia.
    + destruct (Nat.eqb_spec a 1) as [Q|]; [|easy]. injection E as <- <-. split; auto. split; [intros k I; apply H1 in I; lia|]. intros k [K|I]; auto. subst k. split; auto. now rewrite Nat.sub_diag.
Qed.
Lemma mul_loop_facts : forall ws os i tr di, mul_loop i ws os = Ok (tr, di) ->
  (strictly_increasing tr /\ forall k, In k tr -> i <= k) /\ (strictly_increasing di /\ forall k, In k di -> i <= k).
Proof.
  induction ws as [|a ws IH]; intros [|b os] i tr di E; cbn [mul_loop] in E; try easy.
  - injection E as <- <-. repeat split; try constructor; intros k [].
  - injection E as <- <-. repeat split; try constructor; intros k [].
  - destruct (mul_loop (S i) ws os) as [[tr' di']|] eqn:E'; [|easy]. cbn [bind] in E. destruct (IH _ _ _ _ E') as ((S1 & H1) & (S2 & H2)).
    assert (G : forall l : list nat, (forall k, In k l -> S i <= k) -> forall k, In k (i :: l) -> i <= k) by (intros l H k [->|I]; [auto|apply H in I; lia]).
    assert (G' : forall l : list nat, (forall k, In k l -> S i <= k) -> forall k, In k l -> i <= k) by (intros l H k I; apply H in I; lia).
    destruct (b =? 1); [|destruct (b =? a); [|destruct (a =? 1); [|easy]]]; injection E as <- <-; split; split; (apply cons_sorted; [assumption|intros k Ik; auto]) || auto.
    all: first [exact (G _ H1)|exact (G _ H2)|exact (G' _ H1)|exact (G' _ H2)].
Qed.
Lemma window_trace_facts : forall n cs i tr, window_trace i cs n = Ok tr -> strictly_increasing tr /\ forall k, In k tr -> i <= k.
Proof.
  induction n as [|n IH]; intros cs i tr E; [assert (Q : tr = []) by (destruct cs; cbn in E; congruence); rewrite Q; split; [apply SSorted_nil|intros k Ik; destruct Ik]|]. destruct cs as [|c cs]; [easy|]. cbn [window_trace] in E.
  destruct (window_trace (S i) cs n) as [t|] eqn:E'; [|easy]. cbn [rmap] in E. destruct (IH _ _ _ E') as [St H]. destruct (window_trivial c); injection E as <-.
  - split; [apply cons_sorted; auto|]. intros k [->|I]; auto. apply H in I. lia.
  - split; auto. intros k I. apply H in I. lia.
Qed.
Lemma pad_trace_facts : forall n cs i tr, pad_trace i cs n = Ok tr -> strictly_increasing tr /\ forall k, In k tr -> i <= k.
Proof.
  induction n as [|n IH]; intros cs i tr E; [assert (Q : tr = []) by (destruct cs; cbn in E; congruence); rewrite Q; split; [apply SSorted_nil|intros k Ik; destruct Ik]|]. destruct cs as [|c cs]; [easy|]. cbn [pad_trace] in E.
  destruct (pad_trace (S i) cs n) as [t|] eqn:E'; [|easy]. cbn [rmap] in E. destruct (IH _ _ _ E') as [St H]. destruct (pad_trivial c); injection E as <-.
  - split; [apply cons_sorted; auto|]. intros k [->|I]; auto. apply H in I. lia.
  - split; auto. intros k I. apply H in I. lia.
Qed.

(** Along broadcast axes of the output the parameter has size 1, or it is traced along all its axes. *)
Record shared (ws : list nat) (s : structure) : Prop := mkShared {
  shared_length : length (in_trace s) = length (out_trace s);
  shared_diagonal : length (in_diagonal s) = length (out_diagonal s);
  shared_trace : strictly_increasing (in_trace s);
  shared_out : strictly_increasing (out_diagonal s);
  shared_broadcast : forall b, In b (out_broadcast s) -> b < length ws -> nth b ws 0 = 1 \/ forall a, a < length ws -> In a (in_trace s)
}.

Lemma shared_common ws s : shared ws s -> common ws s.
Proof. intros [L _ _ _ B]. split; auto. intros b I H. destruct (B b I H) as [E|E]; auto. Qed.

Notation seq_sorted := Proof_MonteCarlo.seq_sorted.
Notation filter_sorted := Proof_MonteCarlo.filter_sorted.
Lemma nil_sorted : strictly_increasing [].
Proof. constructor. Qed.

Lemma rule_facts p idx invals ws cts s : nth_error invals idx = Some ws -> structure_rule p idx invals cts = Ok s ->
  strictly_increasing (in_trace s) /\ strictly_increasing (out_diagonal s) /\
  forall b, In b (out_broadcast s) -> b < length ws -> nth b ws 0 = 1 \/ forall a, a < length ws -> In a (in_trace s).
Proof.
  intros N E. unfold structure_rule, get_item in E. rewrite N in E. cbn [bind] in E.
  assert (T : forall A B I, strictly_increasing B -> Ok (trace_only A B I) = Ok s -> strictly_increasing (in_trace s) /\ strictly_increasing (out_diagonal s) /\
    forall b, In b (out_broadcast s) -> b < length ws -> nth b ws 0 = 1 \/ forall a, a < length ws -> In a (in_trace s)).
  { intros A B I SB Q. injection Q as <-. cbn. split; auto. split; [apply nil_sorted|]. intros b []. }
  assert (ADD : _add_s idx invals = Ok s -> strictly_increasing (in_trace s) /\ strictly_increasing (out_diagonal s) /\
    forall b, In b (out_broadcast s) -> b < length ws -> nth b ws 0 = 1 \/ forall a, a < length ws -> In a (in_trace s)).
  { clear E. intros E. unfold _add_s, get_item in E. rewrite N in E. destruct (nth_error invals (other_idx idx)) as [os|]; [|easy]. cbn [bind] in E.
    destruct (length os =? 0); [injection E as <-; cbn; split; [apply seq_sorted|]; split; [apply nil_sorted|]; intros b []|].
    destruct (Nat.eqb_spec (length ws) 0) as [Z|Z]; [injection E as <-; cbn; split; [apply nil_sorted|]; split; [apply nil_sorted|]; intros b _ H; lia|].
    destruct (length os =? length ws); [|easy]. destruct (add_loop 0 ws os) as [[tr br]|] eqn:A; [|easy]. injection E as <-. cbn. destruct (add_loop_facts _ _ _ _ _ A) as (St & _ & B).
    split; auto. split; [apply nil_sorted|]. intros b I _. left. destruct (B b I) as [_ Q]. now rewrite Nat.sub_0_r in Q. }
  assert (MUL : _mul_s idx invals = Ok s -> strictly_increasing (in_trace s) /\ strictly_increasing (out_diagonal s) /\
    forall b, In b (out_broadcast s) -> b < length ws -> nth b ws 0 = 1 \/ forall a, a < length ws -> In a (in_trace s)).
  { clear E. intros E. unfold _mul_s, get_item in E. rewrite N in E. destruct (nth_error invals (other_idx idx)) as [os|]; [|easy]. cbn [bind] in E.
    destruct (length os =? 0); [injection E as <-; cbn; split; [apply seq_sorted|]; split; [apply nil_sorted|]; intros b []|].
    destruct (mul_loop 0 ws os) as [[tr di]|] eqn:A; [|easy]. injection E as <-. cbn. destruct (mul_loop_facts _ _ _ _ _ A) as ((S1 & _) & (S2 & _)). split; auto. split; auto. intros b []. }
  destruct p; try (eapply T; [|exact E]); try (now apply ADD); try (now apply MUL); try apply seq_sorted; try (apply filter_sorted, seq_sorted).
  - unfold _dot_general_s, get_item in E. rewrite N in E. destruct (nth_error invals (other_idx idx)) as [os|]; [|easy]. cbn [bind] in E. injection E as <-. cbn.
    split; [apply filter_sorted, seq_sorted|]. split; [apply seq_sorted|]. intros b [].
  - injection E as <-. cbn. split; [apply seq_sorted|]. split; [apply nil_sorted|]. intros b _ _. right. intros a Ha. apply in_seq. lia.
  - unfold _reduce_window_sum_s in E. destruct (window_trace 0 cs (length cts)) as [tr|] eqn:W; [|easy]. eapply T; [|exact E]. now apply window_trace_facts in W.
  - unfold _pad_s in E. destruct (pad_trace 0 cfg (length cts)) as [tr|] eqn:W; [|easy]. eapply T; [|exact E]. now apply pad_trace_facts in W.
  - unfold _transpose_s in E. match type of E with context [if ?b then _ else _] => destruct b end; [|easy]. eapply T; [|exact E]. apply seq_sorted.
  - assert (One : forall a, strictly_increasing [a]) by (intros; repeat constructor). unfold _conv_general_dilated_s in E. destruct (negb (idx =? 1)); [easy|].
    destruct (get_item invals 0) as [lhs|]; [|easy]. destruct (get_item invals 1) as [rhs|]; [|easy]. cbn [bind] in E. cbv zeta in E.
    repeat match type of E with (if ?b then _ else _) = _ => destruct b end; try easy; try (eapply T; [|exact E]; apply One); injection E as <-; cbn; (split; [apply nil_sorted|]); (split; [auto using nil_sorted|]); intros b [].
Qed.

Lemma get_structure_shared sr p shapes idx ws cts s : nth_error shapes idx = Some ws -> get_structure sr p shapes idx cts = Ok s -> shared ws s.
Proof.
  intros N E. unfold get_structure in E. assert (F : exists s', (if sr then structure_rule p idx shapes cts else Ok empty_structure) = Ok s').
  { destruct (if sr then structure_rule p idx shapes cts else Ok empty_structure) as [s'|]; [eauto|easy]. }
  destruct F as (s' & F). rewrite F in E. cbn [bind] in E. unfold get_item in E. rewrite N in E. cbn [bind] in E.
  destruct (Nat.eqb_spec (length (in_trace s')) (length (out_trace s'))) as [L1|]; [|easy]. cbn [negb] in E.
  destruct (size_at _ (map Z.of_nat (out_trace s'))) as [n1|]; [|easy]. cbn [bind] in E. match type of E with context [size_at ?a ?b] => destruct (size_at a b) as [n2|] end; [|easy]. cbn [bind] in E.
  destruct (n2 =? n1); [|easy]. cbn [negb] in E. destruct (Nat.eqb_spec (length (out_diagonal s')) (length (in_diagonal s'))) as [L2|]; [|easy]. cbn [negb] in E.
  match type of E with context [forallb ?f ?l] => destruct (forallb f l) end; [|easy]. injection E as <-. destruct sr.
  - destruct (rule_facts _ _ _ _ _ _ N F) as (S1 & S2 & B). constructor; auto.
  - injection F as <-. constructor; cbn; auto using nil_sorted.
Qed.

(** * Intersections *)

Lemma pairs_trace (t : nat -> bool) A B : length A = length B -> map snd (filter (fun x : nat * nat => t (snd x)) (combine A B)) = filter t B.
Proof. revert B. induction A as [|a A IH]; intros [|b B] L; cbn in L; try easy. cbn [combine filter snd]. destruct (t b); cbn [map snd]; rewrite IH by lia; reflexivity. Qed.
Lemma pairs_fst {X} (t : nat -> bool) A (B : list X) : length A = length B -> map fst (filter (fun x : nat * X => t (fst x)) (combine A B)) = filter t A.
Proof. revert B. induction A as [|a A IH]; intros [|b B] L; cbn in L; try easy. cbn [combine filter fst]. destruct (t a); cbn [map fst]; rewrite IH by lia; reflexivity. Qed.

Lemma and_shared ws s c : shared ws s -> shared ws c -> exists r, structure_and s c = Ok r /\ shared ws r /\
  in_trace r = filter (fun a => mem a (in_trace c)) (in_trace s) /\ out_diagonal r = filter (fun a => mem a (out_diagonal c)) (out_diagonal s) /\
  (forall x, In x (combine (out_diagonal r) (in_diagonal r)) -> In x (combine (out_diagonal s) (in_diagonal s))).
Proof.
  intros [L1 L2 S1 S2 B] [L1' L2' S1' S2' B']. eexists. split; [now apply structure_and_restrict|]. unfold restrict. cbn [in_trace out_trace in_diagonal out_diagonal out_broadcast].
  rewrite (pairs_trace (fun i => mem i (in_trace c))) by auto. rewrite (pairs_fst (fun i => mem i (out_diagonal c))) by auto. split; [|split; auto; split; auto].
  - constructor; cbn [in_trace out_trace in_diagonal out_diagonal out_broadcast].
    + rewrite <- (pairs_trace _ (out_trace s)) by auto. now rewrite !map_length.
    + rewrite <- (pairs_fst _ _ (in_diagonal s)) by auto. now rewrite !map_length.
    + now apply filter_sorted.
    + now apply filter_sorted.
    + intros b I Hb. apply filter_In in I. destruct I as [I1 I2]. apply mem_iff in I2. destruct (B b I1 Hb) as [E|E]; auto. destruct (B' b I2 Hb) as [E'|E']; auto. right. intros a Ha. apply filter_In. split; auto. now apply mem_iff, E'.
  - intros x I. rewrite <- (pairs_fst _ _ (in_diagonal s)) in I by auto.
    assert (Q : forall l : list (nat * list (option nat)), combine (map fst l) (map snd l) = l). { induction l as [|[u v] l IH]; cbn; congruence. }
    rewrite Q in I. now apply filter_In in I.
Qed.

Lemma cache_shared ws : forall ss s c, (forall x, In x (s :: ss) -> shared ws x) -> structure_cache (s :: ss) = Ok c ->
  shared ws c /\ (forall a, In a (in_trace c) <-> forall x, In x (s :: ss) -> In a (in_trace x)) /\
  (forall a, In a (out_diagonal c) <-> forall x, In x (s :: ss) -> In a (out_diagonal x)).
Proof.
  unfold structure_cache. induction ss as [|s' ss IH]; intros s c H E; cbn [fold_left] in E.
  - injection E as <-. split; [apply H; now left|]. split; intros a; (split; [intros I x [<-|[]]; auto|intros I; apply I; now left]).
  - destruct (and_shared ws s s') as (r & Er & Sr & T & D & _); [apply H; now left|apply H; right; now left|]. cbn [bind] in E. rewrite Er in E.
    destruct (IH r c) as (Sc & Tc & Dc); auto. { intros x [<-|I]; auto. apply H. right. now right. }
    split; auto. split; intros a.
    + rewrite Tc. split.
      * intros I x [<-|[<-|Ix]].
        -- specialize (I r (or_introl eq_refl)). rewrite T in I. now apply filter_In in I.
        -- specialize (I r (or_introl eq_refl)). rewrite T in I. apply filter_In in I. now apply mem_iff.
        -- apply I. now right.
      * intros I x [<-|Ix]; [|apply I; right; now right]. rewrite T. apply filter_In. split; [apply I; now left|]. apply mem_iff, I. right. now left.
    + rewrite Dc. split.
      * intros I x [<-|[<-|Ix]].
        -- specialize (I r (or_introl eq_refl)). rewrite D in I. now apply filter_In in I.
        -- specialize (I r (or_introl eq_refl)). rewrite D in I. apply filter_In in I. now apply mem_iff.
        -- apply I. now right.
      * intros I x [<-|Ix]; [|apply I; right; now right]. rewrite D. apply filter_In. split; [apply I; now left|]. apply mem_iff, I. right. now left.
Qed.

Lemma cache_ok ws : forall ss s, (forall x, In x (s :: ss) -> shared ws x) -> exists c, structure_cache (s :: ss) = Ok c.
Proof.
  unfold structure_cache. induction ss as [|s' ss IH]; intros s H; cbn [fold_left]; [eauto|].
  destruct (and_shared ws s s') as (r & Er & Sr & _); [apply H; now left|apply H; right; now left|]. cbn [bind]. rewrite Er. apply IH. intros x [<-|I]; auto. apply H. right. now right.
Qed.

(** A structure narrowed to the shared one is traced, and diagonal, along the shared axes. *)
Lemma and_cache ws ss c s r : (forall x, In x ss -> shared ws x) -> structure_cache ss = Ok c -> In s ss -> structure_and s c = Ok r ->
  in_trace r = in_trace c /\ out_diagonal r = out_diagonal c.
Proof.
  intros H E I Er. destruct ss as [|s0 ss]; [easy|]. destruct (cache_shared ws ss s0 c H E) as (Sc & Tc & Dc). destruct (and_shared ws s c (H s I) Sc) as (r' & Er' & Sr & T & D & _).
  rewrite Er' in Er. injection Er as <-. split.
  - apply Proof_MonteCarlo.sorted_unique; [apply Sr|apply Sc|]. intros a. rewrite T, filter_In, mem_iff. split; [tauto|]. intros J. split; auto. now apply (Tc a).
  - apply Proof_MonteCarlo.sorted_unique; [apply Sr|apply Sc|]. intros a. rewrite D, filter_In, mem_iff. split; [tauto|]. intros J. split; auto. now apply (Dc a).
Qed.
