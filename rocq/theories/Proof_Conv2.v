(** The whole loop, and windows of reversed axes. *)
From Coq Require Import Reals List Arith Lia Lra Bool Permutation.
From Verif Require Import Base Tensor Reshape Model_Axes Model_Geom Model_Net Model_Predict Model_Kernel Spec_Geom Spec_Inputs Spec_Conv Model_Conv
  Proof_Axes Proof_Axes2 Proof_Kernel Proof_Move Proof_Net Proof_Geom Proof_Linalg Proof_Conv.
Import ListNotations.
Local Open Scope R_scope.

Lemma interleave_app {A} : forall (a b c d : list A), length a = length b -> interleave (a ++ c) (b ++ d) = interleave a b ++ interleave c d.
Proof. induction a as [|x a IH]; intros [|y b] c d H; try discriminate; [reflexivity|]. cbn in *. rewrite IH by lia. reflexivity. Qed.

(** Positions of windows, axis lists split in two. *)
Lemma lsum_locs_app : forall f1 f2 (F : loc -> R),
  lsum (locs (f1 ++ f2)) F = lsum (locs f1) (fun k => lsum (locs f2) (fun l => F (k ++ l))).
Proof.
  induction f1 as [|n f1 IH]; intros f2 F; cbn [app locs].
  - cbn [lsum app]. rewrite Rplus_0_r. reflexivity.
  - rewrite !lsum_flat_map. apply lsum_ext. intros i _. rewrite !lsum_map, IH. reflexivity.
Qed.
Lemma lsum_locs_one n (F : loc -> R) : lsum (locs [n]) F = msum n (fun i => F [i]).
Proof. cbn [locs]. rewrite lsum_flat_map. unfold msum. apply lsum_ext. intros i _. cbn. ring. Qed.

Lemma loc_at_app pad : forall sp fs ss p k sp' fs' ss' p' k',
  length fs = length sp -> length ss = length sp -> length p = length sp -> length k = length sp ->
  loc_at pad (sp ++ sp') (fs ++ fs') (ss ++ ss') (p ++ p') (k ++ k')
  = match loc_at pad sp fs ss p k, loc_at pad sp' fs' ss' p' k' with Some a, Some b => Some (a ++ b) | _, _ => None end.
Proof.
  induction sp as [|n sp IH]; intros [|f fs] [|s ss] [|x p] [|y k] sp' fs' ss' p' k'; cbn; intros; try lia.
  - destruct (loc_at pad sp' fs' ss' p' k'); reflexivity.
  - rewrite IH by lia. destruct (axis_at pad n f s x y); [|reflexivity].
    destruct (loc_at pad sp fs ss p k); [|reflexivity]. destruct (loc_at pad sp' fs' ss' p' k'); reflexivity.
Qed.
Lemma loc_at_one pad n f s p k : loc_at pad [n] [f] [s] [p] [k] = match axis_at pad n f s p k with Some a => Some [a] | None => None end.
Proof. reflexivity. Qed.
Lemma out_shape_app pad : forall sp fs ss sp' fs' ss', length fs = length sp -> length ss = length sp ->
  out_shape pad (sp ++ sp') (fs ++ fs') (ss ++ ss') = out_shape pad sp fs ss ++ out_shape pad sp' fs' ss'.
Proof. induction sp as [|n sp IH]; intros [|f fs] [|s ss] sp' fs' ss'; cbn; intros; try lia; auto. rewrite IH by lia. reflexivity. Qed.
Lemma out_shape_length pad : forall sp fs ss, length fs = length sp -> length ss = length sp -> length (out_shape pad sp fs ss) = length sp.
Proof. induction sp as [|n sp IH]; intros [|f fs] [|s ss]; cbn; intros; try lia. rewrite IH; lia. Qed.
Lemma vol_app a b : vol (a ++ b) = (vol a * vol b)%nat.
Proof. unfold vol. rewrite fold_right_app. induction a as [|x a IH]; cbn; [lia|]. rewrite IH. lia. Qed.

Lemma in_range_snoc sh n i : in_range (sh ++ [n]) i -> exists j x, i = j ++ [x] /\ in_range sh j /\ (x < n)%nat.
Proof.
  intros H. apply in_range_app_inv in H. destruct H as (j & r & -> & H1 & H2). inversion H2 as [|x ? r' ? Hx Hr]; subst. inversion Hr; subst. eauto 6.
Qed.

Lemma firstn_Forall {A} (P : A -> Prop) n l : List.Forall P l -> List.Forall P (firstn n l).
Proof. intros H. revert n. induction H; intros [|n]; cbn; auto. Qed.

Section Loop.
  Variables (nc : nat -> nat) (F St : list nat) (pad : window) (bn : nat) (B : list nat).
  Hypothesis Hnc : ok_channels nc.
  Hypothesis HF : List.Forall (fun f => 0 < f)%nat F.
  Hypothesis HS : List.Forall (fun s => 0 < s)%nat St.
  Hypothesis HB : length B = bn.

  Lemma loop_ok : forall m sp post (t : tensor R), (m <= length F)%nat -> (m <= length St)%nat -> length sp = m ->
    List.Forall (fun n => 0 < n)%nat sp ->
    shape t = B ++ interleave sp sp ++ post ->
    let fs := firstn m F in let ss := firstn m St in let out := out_shape pad sp fs ss in
    exists u, fold_left (fun acc si => bind acc (full_spatial_step nc F St pad bn si)) (rev (seq 0 m)) (Ok t) = Ok u
      /\ shape u = B ++ post ++ interleave (rev out) (rev out)
      /\ forall i j p q, in_range B i -> in_range post j -> in_range out p -> in_range out q ->
           entry u (i ++ j ++ interleave (rev p) (rev q))
           = lsum (locs fs) (fun k => read2 (fun a b => entry t (i ++ interleave a b ++ j)) (loc_at pad sp fs ss p k) (loc_at pad sp fs ss q k)) / INR (vol fs).
  Proof.
    induction m as [|m IH]; intros sp post t HmF HmS Lsp Psp Sh fs ss out.
    - destruct sp; [|discriminate]. subst fs ss out. cbn in *. exists t. split; [reflexivity|]. split; [rewrite Sh, app_nil_r; reflexivity|].
      intros i j p q Hi Hj Hp Hq. inversion Hp; inversion Hq; subst. cbn. rewrite app_nil_r. unfold vol. cbn. field.
    - destruct (exists_last (l := sp)) as (sp1 & n & ->); [intros ->; discriminate|].
      rewrite app_length in Lsp. cbn in Lsp. assert (L1 : length sp1 = m) by lia.
      apply Forall_app in Psp. destruct Psp as [P1 P2]. pose proof (List.Forall_inv P2) as Pn; clear P2.
      set (f := nth m F 0%nat). set (s := nth m St 0%nat).
      assert (Ef : fs = firstn m F ++ [f]).
      { subst fs f. clear - HmF. revert m HmF. induction F as [|a l IHl]; intros m Hm; [cbn in Hm; lia|]. destruct m; [reflexivity|]. cbn in *. f_equal. apply IHl. lia. }
      assert (Es : ss = firstn m St ++ [s]).
      { subst ss s. clear - HmS. revert m HmS. induction St as [|a l IHl]; intros m Hm; [cbn in Hm; lia|]. destruct m; [reflexivity|]. cbn in *. f_equal. apply IHl. lia. }
      set (fs1 := firstn m F) in *. set (ss1 := firstn m St) in *.
      assert (Lf1 : length fs1 = m) by (subst fs1; rewrite firstn_length; lia).
      assert (Ls1 : length ss1 = m) by (subst ss1; rewrite firstn_length; lia).
      assert (Pf : (0 < f)%nat) by (rewrite List.Forall_forall in HF; apply HF, nth_In; lia).
      assert (Ps : (0 < s)%nat) by (rewrite List.Forall_forall in HS; apply HS, nth_In; lia).
      rewrite interleave_app in Sh by reflexivity. cbn [interleave] in Sh.
      assert (Sh' : shape t = (B ++ interleave sp1 sp1) ++ [n; n] ++ post) by (rewrite Sh, <- !app_assoc; reflexivity).
      destruct (step_ok nc F St pad bn m t (B ++ interleave sp1 sp1) n post Hnc Sh') as (u1 & E1 & S1 & R1).
      { rewrite app_length, interleave_length by reflexivity. lia. }
      { auto. } { auto. } { auto. }
      fold f s in S1, R1. set (h := axis_out pad n f s) in *.
      rewrite seq_S, rev_app_distr. cbn [rev app fold_left bind]. rewrite Nat.add_0_l, E1. cbn [bind].
      rewrite <- app_assoc in S1. 
      destruct (IH sp1 (post ++ [h; h]) u1 ltac:(lia) ltac:(lia) L1 P1) as (u & Eu & Su & Ru).
      { exact S1. }
      fold fs1 ss1 in Su, Ru. set (out1 := out_shape pad sp1 fs1 ss1) in *.
      assert (Eo : out = out1 ++ [h]).
      { subst out. rewrite Ef, Es, out_shape_app by lia. reflexivity. }
      assert (Lo : length out1 = m) by (subst out1; rewrite out_shape_length; lia).
      exists u. split; [exact Eu|]. split.
      { rewrite Su, Eo, rev_app_distr. cbn [rev app interleave]. rewrite <- !app_assoc. reflexivity. }
      intros i j p q Hi Hj Hp Hq. rewrite Eo in Hp, Hq.
      apply in_range_snoc in Hp. destruct Hp as (p1 & x & -> & Hp1 & Hx).
      apply in_range_snoc in Hq. destruct Hq as (q1 & y & -> & Hq1 & Hy).
      rewrite !rev_app_distr. cbn [rev app interleave].
      replace (i ++ j ++ x :: y :: interleave (rev p1) (rev q1)) with (i ++ (j ++ [x; y]) ++ interleave (rev p1) (rev q1)) by (rewrite <- !app_assoc; reflexivity).
      rewrite Ru; auto. 2:{ apply in_range_app; auto. repeat constructor; auto. }
      rewrite Ef, Es, vol_app, lsum_locs_app. replace (vol [f]) with f by (unfold vol; cbn; lia). rewrite mult_INR.
      unfold Rdiv. rewrite Rinv_mult, <- Rmult_assoc, (Rmult_comm _ (/ INR f)), <- Rmult_assoc. f_equal. rewrite Rmult_comm, <- lsum_scale_r.
      pose proof (in_range_length _ _ Hp1) as Lp1. pose proof (in_range_length _ _ Hq1) as Lq1.
      apply lsum_ext. intros k Hk. apply in_locs in Hk. assert (Lk : length k = m) by (rewrite (in_shape_length _ _ Hk); lia).
      rewrite lsum_locs_one.
      destruct (loc_at pad sp1 fs1 ss1 p1 k) as [a|] eqn:Ea.
      + destruct (loc_at pad sp1 fs1 ss1 q1 k) as [b|] eqn:Eb; cbn [read2].
        * assert (Ha : in_range sp1 a).
          { apply (loc_at_in pad sp1 fs1 ss1 p1 k a); auto; try lia.
            - apply firstn_Forall; auto. - apply firstn_Forall; auto. }
          assert (Hb : in_range sp1 b).
          { apply (loc_at_in pad sp1 fs1 ss1 q1 k b); auto; try lia.
            - apply firstn_Forall; auto. - apply firstn_Forall; auto. }
          replace (i ++ interleave a b ++ j ++ [x; y]) with ((i ++ interleave a b) ++ j ++ [x; y]) by (rewrite <- app_assoc; reflexivity).
          rewrite R1; auto. 2:{ apply in_range_app; auto. apply in_range_interleave; auto. }
          unfold Rdiv. f_equal. apply msum_ext. intros l Hl.
          rewrite !loc_at_app by lia. rewrite Ea, Eb, !loc_at_one. unfold aread2.
          destruct (axis_at pad n f s x l) as [a'|]; [|reflexivity]. destruct (axis_at pad n f s y l) as [b'|]; [|reflexivity].
          cbn [read2]. f_equal. rewrite interleave_app by (rewrite (in_range_length _ _ Ha), (in_range_length _ _ Hb); reflexivity).
          cbn [interleave]. rewrite <- !app_assoc. reflexivity.
        * rewrite msum_zero; [ring|]. intros l _. rewrite !loc_at_app by lia. rewrite Ea, Eb.
          destruct (loc_at pad [n] [f] [s] [x] [l]); reflexivity.
      + cbn [read2]. rewrite msum_zero; [ring|]. intros l _. rewrite !loc_at_app by lia. rewrite Ea. reflexivity.
  Qed.
End Loop.
