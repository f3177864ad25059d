(** One pass of the loop over pairs of spatial axes. *)
From Coq Require Import Reals List Arith Lia Lra Bool.
From Verif Require Import Base Tensor Reshape Model_Axes Model_Geom Model_Net Model_Predict Model_Kernel Spec_Geom Spec_Inputs Spec_Conv Model_Conv
  Proof_Axes Proof_Axes2 Proof_Move Proof_Net Proof_Geom Proof_Linalg.
Import ListNotations.
Local Open Scope R_scope.

Lemma filter_pair (a m : nat) :
  filter (fun i => negb (mem i [a; S a])) (seq 0 (a + 2 + m)) = seq 0 a ++ seq (a + 2) m.
Proof.
  rewrite <- Nat.add_assoc, seq_app, filter_app. cbn [Nat.add seq]. f_equal.
  - apply filter_keep. intros x Hx [H|[H|[]]]; apply in_seq in Hx; lia.
  - change (2 + m)%nat with (S (S m)). cbn [seq filter].
    replace (mem a [a; S a]) with true by (symmetry; apply mem_In; cbn; auto).
    replace (mem (S a) [a; S a]) with true by (symmetry; apply mem_In; cbn; auto). cbn [negb].
    replace (a + 2)%nat with (S (S a)) by lia. apply filter_keep. intros x Hx [H|[H|[]]]; apply in_seq in Hx; lia.
Qed.

Lemma map_nth_mid_at {A} (d : A) (pre l post : list A) s n :
  s = length pre -> n = length l -> map (fun i => nth i (pre ++ l ++ post) d) (seq s n) = l.
Proof.
  intros -> ->.
  assert (forall n s, (s + n <= length l)%nat -> map (fun i => nth i (pre ++ l ++ post) d) (seq (length pre + s) n) = map (fun i => nth i l d) (seq s n)) as H.
  { induction n as [|n IH]; intros s Hs; [reflexivity|]. cbn [seq map]. f_equal.
    - rewrite app_nth2 by lia. replace (length pre + s - length pre)%nat with s by lia. rewrite app_nth1 by lia. reflexivity.
    - rewrite <- IH by lia. f_equal. f_equal. lia. }
  specialize (H (length l) 0%nat ltac:(lia)). rewrite Nat.add_0_r in H. rewrite H. apply map_nth_seq_all.
Qed.

Lemma move_pair {A} (t : tensor A) pre x y post a :
  shape t = pre ++ [x; y] ++ post -> a = length pre ->
  exists u, moveaxis [a; S a] [ndim t - 2; ndim t - 1]%nat t = Ok u
    /\ shape u = pre ++ post ++ [x; y]
    /\ forall i j p q, length i = length pre -> length j = length post -> entry u (i ++ j ++ [p; q]) = entry t (i ++ [p; q] ++ j).
Proof.
  intros Sh ->. set (a := length pre). set (m := length post).
  assert (Hn : ndim t = (a + 2 + m)%nat) by (unfold ndim, a, m; rewrite Sh, !app_length; cbn; lia).
  set (b := (a + m)%nat).
  replace [ndim t - 2; ndim t - 1]%nat with [b; S b] by (rewrite Hn; unfold b; f_equal; [lia|f_equal; lia]).
  assert (Fd : filter (fun i => negb (mem i [b; S b])) (seq 0 (ndim t)) = seq 0 b).
  { rewrite Hn. replace (a + 2 + m)%nat with (b + 2 + 0)%nat by (unfold b; lia). rewrite filter_pair. cbn [seq]. apply app_nil_r. }
  assert (Fs : filter (fun i => negb (mem i [a; S a])) (seq 0 (ndim t)) = seq 0 a ++ seq (a + 2) m).
  { rewrite Hn. apply filter_pair. }
  assert (K : forall i j p q, length i = a -> length j = m ->
     let hs := fun c => nth c (i ++ [p; q] ++ j) 0%nat in let gs := fun c => nth c (i ++ j ++ [p; q]) 0%nat in
     map gs [b; S b] = map hs [a; S a] /\ map gs (seq 0 b) = map hs (seq 0 a ++ seq (a + 2) m)
     /\ map hs (seq 0 (ndim t)) = i ++ [p; q] ++ j /\ map gs (seq 0 (ndim t)) = i ++ j ++ [p; q]).
  { intros i j p q Li Lj hs gs. split; [|split; [|split]].
    - transitivity [p; q]; [|symmetry]; cbn [map]; unfold gs, hs.
      + pose proof (map_nth_mid_at 0%nat (i ++ j) [p; q] [] b 2) as E. rewrite app_nil_r, <- app_assoc in E.
        apply E; [rewrite app_length; unfold b; lia|reflexivity].
      + apply (map_nth_mid_at 0%nat i [p; q] j a 2); auto.
    - rewrite map_app. transitivity (i ++ j).
      + pose proof (map_nth_mid_at 0%nat [] (i ++ j) [p; q] 0 b) as E. cbn [app] in E. rewrite <- app_assoc in E.
        apply E; auto. rewrite app_length. unfold b. lia.
      + f_equal.
        * symmetry. apply (map_nth_mid_at 0%nat [] i ([p; q] ++ j)); auto.
        * symmetry. pose proof (map_nth_mid_at 0%nat (i ++ [p; q]) j [] (a + 2) m) as E. rewrite app_nil_r, <- app_assoc in E.
          apply E; auto. rewrite app_length. cbn. lia.
    - replace (ndim t) with (length (i ++ [p; q] ++ j)) by (rewrite !app_length; cbn; lia). apply map_nth_seq_all.
    - replace (ndim t) with (length (i ++ j ++ [p; q])) by (rewrite !app_length; cbn; lia). apply map_nth_seq_all. }
  destruct (K pre post x y eq_refl eq_refl) as (K1 & K2 & K3 & K4).
  destruct (moveaxis_read t (ndim t) [a; S a] [b; S b] (fun c => nth c (pre ++ [x; y] ++ post) 0%nat) (fun c => nth c (pre ++ post ++ [x; y]) 0%nat)) as (u & Eu & Su & Ru); auto.
  - repeat constructor; cbn; intuition lia.
  - repeat constructor; cbn; intuition lia.
  - intros z [<-|[<-|[]]]; lia.
  - intros z [<-|[<-|[]]]; unfold b; lia.
  - rewrite K3. auto.
  - rewrite Fd, Fs. exact K2.
  - exists u. split; [exact Eu|]. split; [rewrite Su; exact K4|].
    intros i j p q Li Lj. destruct (K i j p q Li Lj) as (J1 & J2 & J3 & J4).
    rewrite <- J4, <- J3. apply Ru; auto. rewrite Fd, Fs. exact J2.
Qed.

Definition aread2 (G : nat -> nat -> R) (o o' : option nat) : R := match o, o' with Some a, Some b => G a b | _, _ => 0 end.

Lemma diag_rhs f (F : nat -> nat -> R) : (0 < f)%nat ->
  msum f (fun k => msum f (fun l => get_rhs f k l * F k l)) = msum f (fun k => F k k) / INR f.
Proof.
  intros Hf. unfold Rdiv. rewrite <- msum_scale_r. apply msum_ext. intros k Hk.
  transitivity (msum f (fun l => (/ INR f * F k l) * delta l k)).
  - apply msum_ext. intros l _. unfold get_rhs, delta. rewrite (Nat.eqb_sym l k). destruct (k =? l)%nat; unfold Rdiv; ring.
  - rewrite msum_delta by auto. ring.
Qed.

Lemma reshape4 (u : tensor R) P h w c :
  shape u = P ++ [h; w] -> (0 < c)%nat -> (size P / c * c = size P)%nat ->
  exists v, reshape ([size P / c; c]%nat ++ [h; w]) u = Ok v /\ shape v = [size P / c; c; h; w]%nat
    /\ forall i p q, in_range P i -> (p < h)%nat -> (q < w)%nat ->
         entry v [ravel P i / c; ravel P i mod c; p; q]%nat = entry u (i ++ [p; q]).
Proof.
  intros Su Hc Hd. destruct (reshape_ok ([size P / c; c]%nat ++ [h; w]) u) as (v & Ev).
  { rewrite Su, !size_app. cbn [size]. nia. }
  exists v. split; [exact Ev|]. split; [apply (reshape_shape _ _ _ Ev)|].
  intros i p q Hi Hp Hq. apply (reshape_entry _ _ _ _ _ Ev).
  - rewrite Su. apply in_range_app; auto. repeat constructor; auto.
  - rewrite Su, ravel_app by (apply in_range_length; auto). cbn [app ravel size].
    pose proof (Nat.div_mod (ravel P i) c ltac:(lia)) as D. nia.
Qed.

Lemma reshape4_back (v : tensor R) P h w c :
  shape v = [size P / c; c; h; w]%nat -> (0 < c)%nat -> (size P / c * c = size P)%nat ->
  exists u, reshape (P ++ [h; w]) v = Ok u /\ shape u = P ++ [h; w]
    /\ forall i p q, in_range P i -> (p < h)%nat -> (q < w)%nat ->
         entry u (i ++ [p; q]) = entry v [ravel P i / c; ravel P i mod c; p; q]%nat.
Proof.
  intros Sv Hc Hd. destruct (reshape_ok (P ++ [h; w]) v) as (u & Eu).
  { rewrite Sv, !size_app. cbn [size]. nia. }
  exists u. split; [exact Eu|]. split; [apply (reshape_shape _ _ _ Eu)|].
  intros i p q Hi Hp Hq. apply (reshape_entry _ _ _ _ _ Eu).
  - rewrite Sv. pose proof (ravel_lt _ _ Hi). repeat constructor; auto.
    + apply Nat.div_lt_upper_bound; nia.
    + apply Nat.mod_upper_bound. lia.
  - rewrite Sv, ravel_app by (apply in_range_length; auto). cbn [app ravel size].
    pose proof (Nat.div_mod (ravel P i) c ltac:(lia)) as D. nia.
Qed.

Lemma step_ok nc fs ss pad bn si (t : tensor R) pre n post :
  ok_channels nc -> shape t = pre ++ [n; n] ++ post -> length pre = (bn + 2 * si)%nat ->
  let f := nth si fs 0%nat in let s := nth si ss 0%nat in
  (0 < n)%nat -> (0 < f)%nat -> (0 < s)%nat ->
  exists u, full_spatial_step nc fs ss pad bn si t = Ok u
    /\ shape u = pre ++ post ++ [axis_out pad n f s; axis_out pad n f s]
    /\ forall i j p q, in_range pre i -> in_range post j -> (p < axis_out pad n f s)%nat -> (q < axis_out pad n f s)%nat ->
         entry u (i ++ j ++ [p; q])
         = msum f (fun k => aread2 (fun a b => entry t (i ++ [a; b] ++ j)) (axis_at pad n f s p k) (axis_at pad n f s q k)) / INR f.
Proof.
  intros Hnc Sh Lp f s Hn Hf Hs. unfold full_spatial_step.
  replace (bn + 2 * si + 1 - 1)%nat with (length pre) by lia. replace (bn + 2 * si + 1)%nat with (S (length pre)) by lia.
  destruct (move_pair t pre n n post _ Sh eq_refl) as (u & Eu & Su & Ru). rewrite Eu. cbn [bind].
  assert (Sn : ndim t = (length (pre ++ post) + 2)%nat) by (unfold ndim; rewrite Sh, !app_length; cbn; lia).
  replace (ndim t - 2)%nat with (length (pre ++ post)) by lia.
  rewrite app_assoc in Su. rewrite Su, firstn_app_l, skipn_app_l by reflexivity. set (P := pre ++ post) in *.
  destruct (Hnc (size P)) as [Hc Hd]. set (c := nc (size P)) in *.
  destruct (reshape4 u P n n c Su Hc Hd) as (v & Ev & Sv & Rv). rewrite Ev. cbn [bind].
  fold f s. set (d := depthwise_conv f (get_rhs f) s pad v).
  set (h := axis_out pad n f s).
  assert (Sd : shape d = [size P / c; c; h; h]%nat) by (unfold d, depthwise_conv; cbn [shape]; rewrite Sv; reflexivity).
  rewrite Sd. cbn [skipn].
  destruct (reshape4_back d P h h c Sd Hc Hd) as (w & Ew & Sw & Rw). rewrite Ew.
  exists w. split; [reflexivity|]. split; [rewrite Sw; unfold P; rewrite <- app_assoc; reflexivity|].
  intros i j p q Hi Hj Hp Hq. assert (Hij : in_range P (i ++ j)) by (apply in_range_app; auto).
  rewrite app_assoc, Rw by auto. unfold d, depthwise_conv. cbn [entry]. rewrite Sv. cbn [nth firstn].
  rewrite diag_rhs by auto. f_equal. apply msum_ext. intros k Hk. unfold aread2.
  destruct (axis_at pad n f s p k) as [a|] eqn:Ea; [|reflexivity].
  destruct (axis_at pad n f s q k) as [b|] eqn:Eb; [|reflexivity].
  assert (Ha : (a < n)%nat) by (apply (axis_at_lt pad n f s p k a); auto).
  assert (Hb : (b < n)%nat) by (apply (axis_at_lt pad n f s q k b); auto).
  cbn [app]. rewrite Rv by auto. rewrite <- app_assoc. apply Ru; apply in_range_length; auto.
Qed.
