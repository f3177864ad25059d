(** Transposed convolutions: summing the ends of the [VALID] result onto each other gives
    positions modulo the size of the output. *)
From Coq Require Import Reals List Arith Lia Lra Bool.
From Verif Require Import Base Tensor Reshape Model_Axes Model_Geom Model_Net Model_Predict Model_Kernel Spec_Geom Spec_Inputs Spec_Axes Spec_Conv Model_Conv
  Proof_Axes Proof_Axes2 Proof_Kernel Proof_Move Proof_Net Proof_Geom Proof_Linalg Proof_Conv Proof_Conv2 Proof_Conv3 Proof_Conv4.
Import ListNotations.
Local Open Scope R_scope.

Lemma loc_at_rev pad : forall sp fs ss p k,
  length fs = length sp -> length ss = length sp -> length p = length sp -> length k = length sp ->
  loc_at pad (rev sp) (rev fs) (rev ss) (rev p) (rev k) = option_map (@rev nat) (loc_at pad sp fs ss p k).
Proof.
  induction sp as [|n sp IH]; intros [|f fs] [|s ss] [|x p] [|y k] H1 H2 H3 H4; try discriminate; [reflexivity|].
  cbn [length] in *. cbn [rev]. rewrite loc_at_app by (rewrite !rev_length; lia). rewrite IH by lia. rewrite loc_at_one. cbn [loc_at].
  destruct (axis_at pad n f s x y); destruct (loc_at pad sp fs ss p k); reflexivity.
Qed.
Lemma lsum_locs_rev : forall fs (F : loc -> R), lsum (locs (rev fs)) F = lsum (locs fs) (fun k => F (rev k)).
Proof.
  induction fs as [|f fs IH]; intros F; [reflexivity|]. cbn [rev]. rewrite lsum_locs_app, IH. cbn [locs]. rewrite lsum_flat_map.
  transitivity (lsum (locs fs) (fun k => lsum (seq 0 f) (fun i => F (rev k ++ [i])))).
  - apply lsum_ext. intros k _. change (flat_map _ (seq 0 f)) with (locs [f]). rewrite lsum_locs_one. reflexivity.
  - rewrite lsum_swap. apply lsum_ext. intros i _. rewrite lsum_map. reflexivity.
Qed.
Lemma vol_rev fs : vol (rev fs) = vol fs.
Proof. induction fs as [|f fs IH]; [reflexivity|]. cbn [rev]. rewrite vol_app, IH. unfold vol. cbn [fold_right]. lia. Qed.
Lemma out_shape_rev pad : forall sp fs ss, length fs = length sp -> length ss = length sp ->
  out_shape pad (rev sp) (rev fs) (rev ss) = rev (out_shape pad sp fs ss).
Proof.
  induction sp as [|n sp IH]; intros [|f fs] [|s ss] H1 H2; try discriminate; [reflexivity|]. cbn [length] in *. cbn [rev].
  rewrite out_shape_app by (rewrite !rev_length; lia). rewrite IH by lia. reflexivity.
Qed.

(** ** One axis *)
Definition obind {A B} (o : option A) (f : A -> option B) : option B := match o with Some a => f a | None => None end.
Definition fold_window (X L : nat) : nat := ((X + L - 1) / L / 2 * 2 + 1)%nat.
Definition fold_lo (X L : nat) : nat := ((X - L) / 2)%nat.

Lemma half_le a : (2 * (a / 2) <= a /\ a <= 2 * (a / 2) + 1)%nat.
Proof. pose proof (Nat.div_mod a 2 ltac:(lia)). pose proof (Nat.mod_upper_bound a 2 ltac:(lia)). lia. Qed.

Lemma transpose_pad_lo f s : (0 < f)%nat -> (0 < s)%nat -> (transpose_pad f s + (f - s) / 2 = f - 1)%nat.
Proof.
  intros Hf Hs. unfold transpose_pad. destruct (Nat.ltb_spec (f - 1) s).
  - replace (f - s)%nat with 0%nat by lia. cbn. lia.
  - pose proof (half_le (f + s - 2 + 1)). pose proof (half_le (f - s)). lia.
Qed.

Lemma spread_some n s d a : spread n s d = Some a -> (0 < s)%nat -> (d = a * s /\ a < n)%nat.
Proof.
  unfold spread. intros E Hs. destruct (Nat.eqb_spec (d mod s) 0) as [M|]; [|discriminate]. destruct (Nat.ltb_spec (d / s) n); [|discriminate].
  injection E as <-. split; [|auto]. rewrite (Nat.div_mod d s) at 1 by lia. lia.
Qed.
Lemma spread_big n s d : (0 < s)%nat -> (n * s <= d)%nat -> spread n s d = None.
Proof.
  intros Hs Hd. unfold spread. destruct (d mod s =? 0)%nat; [|reflexivity].
  destruct (Nat.ltb_spec (d / s) n) as [H|]; [|reflexivity]. exfalso.
  pose proof (Nat.div_le_mono (n * s) d s ltac:(lia) Hd). rewrite Nat.div_mul in H0 by lia. lia.
Qed.

Section Axis.
  Variables (n f s p k : nat).
  Hypotheses (Hn : (0 < n)%nat) (Hf : (0 < f)%nat) (Hs : (0 < s)%nat) (Hk : (k < f)%nat).
  Let L := (n * s)%nat.
  Let X := (n * s + (f - s))%nat.
  Let w := fold_window X L.
  Let h := ((X + L - 1) / L / 2)%nat.
  Let lo := fold_lo X L.
  Let tp := transpose_pad f s.
  Let D := ((p + k + tp * L - tp) mod L)%nat.
  Let Q := ((p + k + tp * L - tp) / L)%nat.
  Hypothesis Hp : (p < L)%nat.

  Lemma L_pos : (0 < L)%nat. Proof. unfold L. nia. Qed.
  Lemma lo_eq : (tp + lo = f - 1)%nat.
  Proof. unfold lo, fold_lo, X, L, tp. replace (n * s + (f - s) - n * s)%nat with (f - s)%nat by lia. apply transpose_pad_lo; auto. Qed.
  Lemma w_eq : w = (2 * h + 1)%nat. Proof. unfold w, fold_window, h. lia. Qed.
  Lemma half_wide : ((f - s) - lo <= h * L /\ lo <= h * L)%nat.
  Proof.
    pose proof L_pos as HL. set (c := ((X + L - 1) / L)%nat). assert (Hc : (X <= c * L)%nat).
    { pose proof (Nat.mul_succ_div_gt (X + L - 1) L ltac:(lia)) as H. fold c in H. nia. }
    pose proof (half_le c) as Hh. fold h in Hh. assert (Ee : lo = ((f - s) / 2)%nat).
    { unfold lo, fold_lo, X, L. f_equal. lia. }
    pose proof (half_le (f - s)) as H2. rewrite <- Ee in H2. assert (f - s <= 2 * (h * L))%nat; [|lia].
    assert (X = L + (f - s))%nat by (unfold X, L; lia).
    assert (c * L <= (2 * h + 1) * L)%nat by (apply Nat.mul_le_mono_r; unfold h in *; fold c in Hh |- *; lia). nia.
  Qed.
  Lemma D_eq : (p + k + tp * L = tp + L * Q + D)%nat /\ (D < L)%nat.
  Proof.
    pose proof L_pos. pose proof (Nat.div_mod (p + k + tp * L - tp) L ltac:(lia)) as H1. fold D Q in H1.
    pose proof (Nat.mod_upper_bound (p + k + tp * L - tp) L ltac:(lia)) as H2. fold D in H2. assert (tp <= tp * L)%nat by nia. lia.
  Qed.

  (** The [m]-th tap of the window that folds. *)
  Let P (m : nat) := dilated_axis X w L (p + lo) m.
  Lemma fold_reads m : match obind (P m) (fun x => axis_at (Transposed VALID) n f s x k) with
                       | Some a => (m + Q = h + tp)%nat /\ spread n s D = Some a
                       | None => (m + Q = h + tp)%nat -> (m < w)%nat -> spread n s D = None
                       end.
  Proof.
    pose proof L_pos as HL. pose proof lo_eq as Hlo. pose proof D_eq as [HD HD']. pose proof w_eq as Hw.
    unfold P, dilated_axis. rewrite Hw. replace ((2 * h + 1 - 1) * L / 2)%nat with (h * L)%nat.
    2:{ replace ((2 * h + 1 - 1) * L)%nat with (h * L * 2)%nat by lia. rewrite Nat.div_mul by lia. reflexivity. }
    cbv zeta.
    assert (N : (m + Q = h + tp)%nat -> forall a, spread n s D = Some a -> (p + lo + m * L + k = h * L + D + (f - 1) /\ h * L <= p + lo + m * L /\ p + lo + m * L < h * L + X)%nat).
    { intros Em a Ea. apply spread_some in Ea; [|auto]. destruct Ea as [Ea Ha].
      assert (E1 : (p + lo + m * L + k = h * L + D + (f - 1))%nat) by nia. split; [exact E1|].
      assert (D + s <= L)%nat by (rewrite Ea; unfold L; nia). split; [lia|]. unfold X. fold L. lia. }
    destruct (Nat.ltb_spec (p + lo + m * L) (h * L)) as [C|C].
    { cbn [obind]. intros Em _. destruct (spread n s D) as [a|] eqn:Ea; [|reflexivity]. destruct (N Em a eq_refl) as (_ & ? & _). lia. }
    destruct (Nat.ltb_spec (p + lo + m * L - h * L) X) as [C'|C'].
    2:{ cbn [obind]. intros Em _. destruct (spread n s D) as [a|] eqn:Ea; [|reflexivity]. destruct (N Em a eq_refl) as (_ & _ & ?). lia. }
    cbn [obind axis_at]. set (x := (p + lo + m * L - h * L)%nat) in *.
    destruct (Nat.ltb_spec (x + k) (f - 1)) as [C2|C2].
    { intros Em _. destruct (spread n s D) as [a|] eqn:Ea; [|reflexivity]. destruct (N Em a eq_refl) as (? & _ & _). lia. }
    set (d := (x + k - (f - 1))%nat).
    assert (E : (L * (h + tp) + d = L * (m + Q) + D)%nat) by (unfold d, x; nia).
    destruct (Nat.le_gt_cases L d) as [B|B].
    { rewrite spread_big by (auto; fold L; lia). intros Em _. exfalso. rewrite Em in E. lia. }
    destruct (Nat.div_mod_unique L (h + tp) (m + Q) d D B HD' E) as [E1 E2]. rewrite E2.
    destruct (spread n s D); [split; [lia|reflexivity]|reflexivity].
  Qed.
  (** Some tap is the right one. *)
  Lemma fold_tap a : spread n s D = Some a -> (Q <= h + tp /\ h + tp - Q < w)%nat.
  Proof.
    intros Ea. apply spread_some in Ea; [|auto]. destruct Ea as [Ea Ha].
    pose proof L_pos as HL. pose proof lo_eq as Hlo. pose proof D_eq as [HD HD']. pose proof w_eq as Hw. pose proof half_wide as [H1 H2].
    assert (D + s <= L)%nat by (rewrite Ea; unfold L; nia).
    assert (A : (L * Q < L * (tp + h + 1))%nat) by nia.
    assert (B : (L * tp < L * (Q + h + 1))%nat) by nia.
    apply Nat.mul_lt_mono_pos_l in A, B; lia.
  Qed.

  Lemma fold_axis (F : option nat -> R) : F None = 0 ->
    lsum (seq 0 w) (fun m => F (obind (P m) (fun x => axis_at (Transposed VALID) n f s x k)))
    = F (axis_at (Transposed CIRCULAR) n f s p k).
  Proof.
    intros F0. cbn [axis_at]. fold L tp D. destruct (spread n s D) as [a|] eqn:Ea.
    - destruct (fold_tap a Ea) as [T1 T2]. set (m0 := (h + tp - Q)%nat) in *.
      rewrite (lsum_single (seq 0 w) m0).
      + pose proof (fold_reads m0) as H. rewrite Ea in H.
        destruct (obind (P m0) _) as [b|]; [destruct H as [_ H]; congruence|]. exfalso. discriminate H; lia.
      + apply seq_NoDup.
      + apply in_seq. lia.
      + intros m Hm Hne. pose proof (fold_reads m) as H. destruct (obind (P m) _) as [b|]; [|exact F0]. exfalso. apply Hne. unfold m0. destruct H. lia.
    - rewrite F0. apply lsum_zero. intros m _. pose proof (fold_reads m) as H. rewrite Ea in H. destruct (obind (P m) _) as [b|]; [destruct H; discriminate|exact F0].
  Qed.
End Axis.

(** ** All axes *)
Fixpoint fold_windows (Xs Ls : list nat) : list nat :=
  match Xs, Ls with X :: Xs, L :: Ls => fold_window X L :: fold_windows Xs Ls | _, _ => [] end.
Fixpoint shifted (Xs Ls p : list nat) : list nat :=
  match Xs, Ls, p with X :: Xs, L :: Ls, a :: p => (a + fold_lo X L)%nat :: shifted Xs Ls p | _, _, _ => [] end.
Definition folded (Xs Ls p m : list nat) : option (list nat) := dilated_at Xs (fold_windows Xs Ls) Ls (shifted Xs Ls p) m.

Lemma fold_locs : forall sp fs ss p k (F : option loc -> R),
  length fs = length sp -> length ss = length sp ->
  List.Forall (fun f => 0 < f)%nat fs -> List.Forall (fun s => 0 < s)%nat ss -> List.Forall (fun n => 0 < n)%nat sp ->
  in_range (out_shape (Transposed CIRCULAR) sp fs ss) p -> in_range fs k -> F None = 0 ->
  let Xs := out_shape (Transposed VALID) sp fs ss in let Ls := out_shape (Transposed CIRCULAR) sp fs ss in
  lsum (locs (fold_windows Xs Ls)) (fun m => F (obind (folded Xs Ls p m) (fun x => loc_at (Transposed VALID) sp fs ss x k)))
  = F (loc_at (Transposed CIRCULAR) sp fs ss p k).
Proof.
  induction sp as [|n sp IH]; intros [|f fs] [|s ss] p k F L1 L2 P1 P2 P3 Hp Hk F0 Xs Ls; try discriminate.
  - inversion Hp; inversion Hk; subst. cbn. ring.
  - inversion Hp as [|p0 ? p' ? Hp0 Hp']; inversion Hk as [|k0 ? k' ? Hk0 Hk']; inversion P1; inversion P2; inversion P3; subst.
    cbn [length] in L1, L2. injection L1 as L1. injection L2 as L2.
    set (Xs' := out_shape (Transposed VALID) sp fs ss). set (Ls' := out_shape (Transposed CIRCULAR) sp fs ss).
    change (lsum (locs (fold_window (axis_out (Transposed VALID) n f s) (axis_out (Transposed CIRCULAR) n f s) :: fold_windows Xs' Ls')) (fun m => F (obind (folded (axis_out (Transposed VALID) n f s :: Xs') (axis_out (Transposed CIRCULAR) n f s :: Ls') (p0 :: p') m) (fun x => loc_at (Transposed VALID) (n :: sp) (f :: fs) (s :: ss) x (k0 :: k'))))
      = F (loc_at (Transposed CIRCULAR) (n :: sp) (f :: fs) (s :: ss) (p0 :: p') (k0 :: k'))).
    cbn [axis_out] in *. set (X := (n * s + (f - s))%nat). set (L := (n * s)%nat).
    cbn [locs]. rewrite lsum_flat_map.
    pose (F1 := fun o : option nat => F (match o with Some j => match loc_at (Transposed CIRCULAR) sp fs ss p' k' with Some js => Some (j :: js) | None => None end | None => None end)).
    transitivity (lsum (seq 0 (fold_window X L)) (fun m0 => F1 (obind (dilated_axis X (fold_window X L) L (p0 + fold_lo X L) m0) (fun x => axis_at (Transposed VALID) n f s x k0)))).
    + apply lsum_ext. intros m0 _. rewrite lsum_map.
      pose (F2 := fun o : option loc => F (match obind (dilated_axis X (fold_window X L) L (p0 + fold_lo X L) m0) (fun x => axis_at (Transposed VALID) n f s x k0), o with Some j, Some js => Some (j :: js) | _, _ => None end)).
      transitivity (lsum (locs (fold_windows Xs' Ls')) (fun m => F2 (obind (folded Xs' Ls' p' m) (fun x => loc_at (Transposed VALID) sp fs ss x k')))).
      * apply lsum_ext. intros m _. unfold F2. f_equal. unfold folded. cbn [fold_windows shifted dilated_at].
        destruct (dilated_axis X (fold_window X L) L (p0 + fold_lo X L) m0) as [x|]; [|reflexivity].
        destruct (dilated_at Xs' (fold_windows Xs' Ls') Ls' (shifted Xs' Ls' p') m) as [y|]; cbn [obind loc_at]; [reflexivity|].
        destruct (axis_at (Transposed VALID) n f s x k0); reflexivity.
      * transitivity (F2 (loc_at (Transposed CIRCULAR) sp fs ss p' k')); [|reflexivity].
        apply (IH fs ss p' k' F2); auto. unfold F2. destruct (obind _ _); exact F0.
    + rewrite (fold_axis n f s p0 k0); auto.
Qed.

Lemma folded_in : forall Xs Ls p m x, length Ls = length Xs -> length p = length Xs -> length m = length Xs -> folded Xs Ls p m = Some x -> in_range Xs x.
Proof.
  induction Xs as [|X Xs IH]; intros [|L Ls] [|a p] [|b m] x H1 H2 H3 E; try discriminate.
  - injection E as <-. constructor.
  - unfold folded in E. cbn [fold_windows shifted dilated_at] in E. unfold dilated_axis at 1 in E.
    destruct (_ <? _)%nat; [discriminate|]. destruct (Nat.ltb_spec (a + fold_lo X L + b * L - (fold_window X L - 1) * L / 2) X) as [Hx|]; [|discriminate].
    destruct (dilated_at Xs (fold_windows Xs Ls) Ls (shifted Xs Ls p) m) as [y|] eqn:Ey; [|discriminate]. injection E as <-.
    constructor; [exact Hx|]. apply (IH Ls p m y); auto.
Qed.
Lemma fold_windows_length : forall Xs Ls, length Ls = length Xs -> length (fold_windows Xs Ls) = length Xs.
Proof. induction Xs as [|X Xs IH]; intros [|L Ls] H; try discriminate; [reflexivity|]. cbn in *. rewrite IH; lia. Qed.
Lemma shifted_length : forall Xs Ls p, length Ls = length Xs -> length p = length Xs -> length (shifted Xs Ls p) = length Xs.
Proof. induction Xs as [|X Xs IH]; intros [|L Ls] [|a p] H H'; try discriminate; [reflexivity|]. cbn in *. rewrite IH; lia. Qed.

(** Axis lists split in two, paired, reversed. *)
Lemma dilated_at_app : forall sh ws ds p k sh' ws' ds' p' k',
  length ws = length sh -> length ds = length sh -> length p = length sh -> length k = length sh ->
  dilated_at (sh ++ sh') (ws ++ ws') (ds ++ ds') (p ++ p') (k ++ k')
  = match dilated_at sh ws ds p k, dilated_at sh' ws' ds' p' k' with Some a, Some b => Some (a ++ b) | _, _ => None end.
Proof.
  induction sh as [|n sh IH]; intros [|f fs] [|s ss] [|x p] [|y k] sp' fs' ss' p' k'; cbn; intros; try lia.
  - destruct (dilated_at sp' fs' ss' p' k'); reflexivity.
  - rewrite IH by lia. destruct (dilated_axis n f s x y); [|reflexivity].
    destruct (dilated_at sh fs ss p k); [|reflexivity]. destruct (dilated_at sp' fs' ss' p' k'); reflexivity.
Qed.
Lemma dilated_at_pairs : forall sp fs ss p q k l,
  length fs = length sp -> length ss = length sp -> length p = length sp -> length q = length sp -> length k = length sp -> length l = length sp ->
  dilated_at (interleave sp sp) (interleave fs fs) (interleave ss ss) (interleave p q) (interleave k l)
  = match dilated_at sp fs ss p k, dilated_at sp fs ss q l with Some a, Some b => Some (interleave a b) | _, _ => None end.
Proof.
  induction sp as [|n sp IH]; intros [|f fs] [|s ss] [|x p] [|y q] [|a k] [|b l]; cbn; intros; try lia; auto.
  rewrite IH by lia. destruct (dilated_axis n f s x a); [|reflexivity].
  destruct (dilated_at sp fs ss p k); destruct (dilated_axis n f s y b); try reflexivity; destruct (dilated_at sp fs ss q l); reflexivity.
Qed.
Lemma fold_windows_pairs : forall Xs Ls, fold_windows (interleave Xs Xs) (interleave Ls Ls) = interleave (fold_windows Xs Ls) (fold_windows Xs Ls).
Proof. induction Xs as [|X Xs IH]; intros [|L Ls]; cbn; auto. rewrite IH. reflexivity. Qed.
Lemma shifted_pairs : forall Xs Ls p q, length p = length q -> shifted (interleave Xs Xs) (interleave Ls Ls) (interleave p q) = interleave (shifted Xs Ls p) (shifted Xs Ls q).
Proof. induction Xs as [|X Xs IH]; intros [|L Ls] [|a p] [|b q] H; cbn in *; try discriminate; auto. rewrite IH by lia. reflexivity. Qed.
Lemma folded_pairs Xs Ls p q k l : length Ls = length Xs -> length p = length Xs -> length q = length Xs -> length k = length Xs -> length l = length Xs ->
  folded (interleave Xs Xs) (interleave Ls Ls) (interleave p q) (interleave k l)
  = match folded Xs Ls p k, folded Xs Ls q l with Some a, Some b => Some (interleave a b) | _, _ => None end.
Proof.
  intros. unfold folded. rewrite fold_windows_pairs, shifted_pairs by lia. apply dilated_at_pairs; auto; rewrite ?fold_windows_length, ?shifted_length; auto.
Qed.
Lemma fold_windows_app : forall Xs Ls Xs' Ls', length Ls = length Xs -> fold_windows (Xs ++ Xs') (Ls ++ Ls') = fold_windows Xs Ls ++ fold_windows Xs' Ls'.
Proof. induction Xs as [|X Xs IH]; intros [|L Ls] Xs' Ls' H; try discriminate; [reflexivity|]. cbn in *. rewrite IH by lia. reflexivity. Qed.
Lemma shifted_app : forall Xs Ls p Xs' Ls' p', length Ls = length Xs -> length p = length Xs -> shifted (Xs ++ Xs') (Ls ++ Ls') (p ++ p') = shifted Xs Ls p ++ shifted Xs' Ls' p'.
Proof. induction Xs as [|X Xs IH]; intros [|L Ls] [|a p] Xs' Ls' p' H H'; try discriminate; [reflexivity|]. cbn in *. rewrite IH by lia. reflexivity. Qed.
Lemma folded_app Xs Ls p m Xs' Ls' p' m' : length Ls = length Xs -> length p = length Xs -> length m = length Xs ->
  folded (Xs ++ Xs') (Ls ++ Ls') (p ++ p') (m ++ m') = match folded Xs Ls p m, folded Xs' Ls' p' m' with Some a, Some b => Some (a ++ b) | _, _ => None end.
Proof. intros. unfold folded. rewrite fold_windows_app, shifted_app by auto. apply dilated_at_app; auto; rewrite ?fold_windows_length, ?shifted_length; auto. Qed.
Lemma fold_windows_rev : forall Xs Ls, length Ls = length Xs -> fold_windows (rev Xs) (rev Ls) = rev (fold_windows Xs Ls).
Proof. induction Xs as [|X Xs IH]; intros [|L Ls] H; try discriminate; [reflexivity|]. cbn [rev fold_windows]. cbn in H. rewrite fold_windows_app by (rewrite !rev_length; lia). rewrite IH by lia. reflexivity. Qed.
Lemma folded_rev : forall Xs Ls p m, length Ls = length Xs -> length p = length Xs -> length m = length Xs ->
  folded (rev Xs) (rev Ls) (rev p) (rev m) = option_map (@rev nat) (folded Xs Ls p m).
Proof.
  induction Xs as [|X Xs IH]; intros [|L Ls] [|a p] [|b m] H1 H2 H3; try discriminate; [reflexivity|].
  cbn [rev]. cbn in H1, H2, H3. rewrite folded_app by (rewrite !rev_length; lia). rewrite IH by lia. unfold folded. cbn [fold_windows shifted dilated_at].
  destruct (dilated_axis X (fold_window X L) L (a + fold_lo X L) b); destruct (dilated_at Xs (fold_windows Xs Ls) Ls (shifted Xs Ls p) m); reflexivity.
Qed.

(** ** The folded array *)
Lemma map_axes {A} (z : A) g b m : map (fun i => if mem i (seq b m) then g i else z) (seq 0 (b + m)) = repeat z b ++ map (fun j => g (b + j)%nat) (seq 0 m).
Proof.
  rewrite seq_app, map_app. f_equal.
  - transitivity (map (fun _ : nat => z) (seq 0 b)).
    + apply map_ext_in. intros a Ha. apply in_seq in Ha. replace (mem a (seq b m)) with false; [reflexivity|]. symmetry. apply mem_false. intros H. apply in_seq in H. lia.
    + rewrite <- (seq_length b 0) at 2. generalize (seq 0 b). induction l; cbn; congruence.
  - cbn [Nat.add]. rewrite map_seq_shift. apply map_ext_in. intros j Hj. apply in_seq in Hj.
    replace (mem (b + j) (seq b m)) with true by (symmetry; apply mem_In, in_seq; lia). reflexivity.
Qed.
Lemma nth_back (B l : list nat) j : nth (length B + j) (B ++ l) 0%nat = nth j l 0%nat.
Proof. rewrite app_nth2 by lia. f_equal. lia. Qed.
Lemma map2_nth (g : nat -> nat -> nat) : forall Xs Ls, length Ls = length Xs ->
  map (fun j => g (nth j Xs 0%nat) (nth j Ls 0%nat)) (seq 0 (length Xs)) = map (fun c => g (fst c) (snd c)) (combine Xs Ls).
Proof.
  induction Xs as [|X Xs IH]; intros [|L Ls] H; try discriminate; [reflexivity|]. cbn [length seq map combine fst snd nth]. f_equal.
  rewrite <- (IH Ls) by (cbn in H; lia). rewrite <- seq_shift, map_map. reflexivity.
Qed.
Lemma fold_windows_map : forall Xs Ls, fold_windows Xs Ls = map (fun c => fold_window (fst c) (snd c)) (combine Xs Ls).
Proof. induction Xs as [|X Xs IH]; intros [|L Ls]; cbn; auto. rewrite IH. reflexivity. Qed.
Lemma ones_dilated : forall B i, in_range B i -> dilated_at B (repeat 1%nat (length B)) (repeat 1%nat (length B)) i (repeat 0%nat (length B)) = Some i.
Proof.
  intros B i Hi. induction Hi as [|x n i B Hx Hi IH]; [reflexivity|]. cbn [length repeat dilated_at]. rewrite IH.
  unfold dilated_axis. change ((1 - 1) * 1 / 2)%nat with 0%nat. cbv zeta. destruct (Nat.ltb_spec (x + 0 * 1) 0); [lia|].
  replace (x + 0 * 1 - 0)%nat with x by lia. destruct (Nat.ltb_spec x n); [reflexivity|lia].
Qed.

Lemma unpad_ok (t : tensor R) B Xs Ls :
  shape t = B ++ Xs -> length Ls = length Xs -> Forall2 le Ls Xs ->
  let u := same_pad_for_filter_shape_transpose t (seq (length B) (ndim t - length B)) (B ++ Ls) in
  shape u = B ++ Ls
  /\ forall i p, in_range B i -> length p = length Xs ->
       entry u (i ++ p) = lsum (locs (fold_windows Xs Ls)) (fun m => read1 (fun a => entry t (i ++ a)) (folded Xs Ls p m)).
Proof.
  intros Sh HL Hle. assert (Hn : ndim t = (length B + length Xs)%nat) by (unfold ndim; rewrite Sh, app_length; reflexivity).
  unfold same_pad_for_filter_shape_transpose. cbv zeta. rewrite Hn. replace (length B + length Xs - length B)%nat with (length Xs) by lia.
  rewrite !map_axes. rewrite Sh.
  assert (Ew : map (fun j => ((nth (length B + j) (B ++ Xs) 0 + nth (length B + j) (B ++ Ls) 0 - 1) / nth (length B + j) (B ++ Ls) 0 / 2 * 2 + 1)%nat) (seq 0 (length Xs)) = fold_windows Xs Ls).
  { rewrite fold_windows_map, <- map2_nth by auto. apply map_ext. intros j. rewrite !nth_back. reflexivity. }
  assert (Ed : map (fun j => nth (length B + j) (B ++ Ls) 0%nat) (seq 0 (length Xs)) = Ls).
  { rewrite <- HL. etransitivity; [|apply map_nth_seq_all]. apply map_ext. intros j. apply nth_back. }
  rewrite Ew, Ed. set (v := reduce_window_dilated _ _ _).
  assert (Sv : shape v = B ++ Xs) by exact Sh.
  assert (Rv : forall i x, in_range B i -> length x = length Xs ->
     entry v (i ++ x) = lsum (locs (fold_windows Xs Ls)) (fun m => read1 (fun a => entry t (i ++ a)) (dilated_at Xs (fold_windows Xs Ls) Ls x m))).
  { intros i x Hi Lx. unfold v, reduce_window_dilated. cbn [entry]. rewrite Sh, lsum_locs_app, ones_locs. cbn [lsum]. rewrite Rplus_0_r. apply lsum_ext. intros m Hm.
    apply in_locs in Hm. pose proof (in_shape_length _ _ Hm) as Lm. rewrite fold_windows_length in Lm by auto. pose proof (in_range_length _ _ Hi) as Li.
    rewrite dilated_at_app by (rewrite ?repeat_length; auto). rewrite ones_dilated by auto.
    destruct (dilated_at Xs (fold_windows Xs Ls) Ls x m); reflexivity. }
  destruct (list_eq_dec Nat.eq_dec (shape v) (B ++ Ls)) as [E|E].
  - rewrite Sv in E. apply app_inv_head in E. subst Ls. split; [exact Sh|]. intros i p Hi Lp. rewrite Rv by auto. apply lsum_ext. intros m _. unfold folded.
    f_equal. f_equal. clear - Lp. revert Xs Lp. induction p as [|a p IH]; intros [|X Xs] H; try discriminate; [reflexivity|]. cbn. cbn in H. f_equal; [|apply IH; lia].
    unfold fold_lo. rewrite Nat.sub_diag. cbn. lia.
  - cbn [shape entry]. assert (Hv : ndim v = (length B + length Xs)%nat) by (unfold ndim; rewrite Sv, app_length; reflexivity). rewrite Hv, Sv. split.
    + rewrite seq_app, map_app. f_equal.
      * transitivity (map (fun i => nth i B 0%nat) (seq 0 (length B))); [|apply map_nth_seq_all]. apply map_ext_in. intros a Ha. apply in_seq in Ha.
        replace (mem a (seq (length B) (length Xs))) with false; [|symmetry; apply mem_false; intros H; apply in_seq in H; lia]. rewrite app_nth1 by lia. lia.
      * cbn [Nat.add]. rewrite map_seq_shift.
        transitivity (map (fun j => (nth j Xs 0 - (nth j Xs 0 - nth j Ls 0 - (nth j Xs 0 - nth j Ls 0) / 2) - (nth j Xs 0 - nth j Ls 0) / 2)%nat) (seq 0 (length Xs))).
        { apply map_ext_in. intros j Hj. apply in_seq in Hj. replace (mem (length B + j) (seq (length B) (length Xs))) with true by (symmetry; apply mem_In, in_seq; lia). rewrite !nth_back. reflexivity. }
        transitivity (map (fun j => nth j Ls 0%nat) (seq 0 (length Xs))); [|rewrite <- HL; apply map_nth_seq_all]. apply map_ext_in. intros j Hj. apply in_seq in Hj.
        assert (nth j Ls 0 <= nth j Xs 0)%nat.
        { clear - Hle Hj. assert (j < length Xs)%nat by lia. revert j H Hj. induction Hle as [|a b l l' H1 H2 IH]; intros j Hl Hj; [cbn in *; lia|]. destruct j; [exact H1|]. cbn in *. apply IH; lia. }
        pose proof (half_le (nth j Xs 0 - nth j Ls 0)%nat). lia.
    + intros i p Hi Lp. pose proof (in_range_length _ _ Hi) as Li.
      replace (map _ (seq 0 (length B + length Xs))) with (i ++ shifted Xs Ls p).
      { apply Rv; auto. apply shifted_length; auto. }
      symmetry. rewrite seq_app, map_app. f_equal.
      * transitivity (map (fun j => nth j i 0%nat) (seq 0 (length B))); [|rewrite <- Li; apply map_nth_seq_all]. apply map_ext_in. intros a Ha. apply in_seq in Ha.
        replace (mem a (seq (length B) (length Xs))) with false; [|symmetry; apply mem_false; intros H; apply in_seq in H; lia]. rewrite app_nth1 by lia. lia.
      * cbn [Nat.add]. rewrite map_seq_shift.
        transitivity (map (fun j => (nth j p 0 + fold_lo (nth j Xs 0) (nth j Ls 0))%nat) (seq 0 (length Xs))).
        { apply map_ext_in. intros j Hj. apply in_seq in Hj. replace (mem (length B + j) (seq (length B) (length Xs))) with true by (symmetry; apply mem_In, in_seq; lia).
          rewrite !nth_back. rewrite <- Li, nth_back. reflexivity. }
        clear - Lp HL. revert Ls p HL Lp. induction Xs as [|X Xs IH]; intros [|L Ls] [|a p] HL Lp; try discriminate; [reflexivity|].
        cbn [length seq map shifted nth]. f_equal. rewrite <- seq_shift, map_map. apply IH; cbn in *; lia.
Qed.

(** ** The transposed convolution of a kernel *)
Lemma one_channel : ok_channels (fun _ => 1%nat).
Proof. intros m. rewrite Nat.div_1_r. lia. Qed.
Lemma transposed_pos w : forall sp fs ss, List.Forall (fun s => 0 < s)%nat ss -> List.Forall (fun n => 0 < n)%nat sp ->
  List.Forall (fun n => 0 < n)%nat (out_shape (Transposed w) sp fs ss).
Proof.
  induction sp as [|n sp IH]; intros [|f fs] [|s ss] H1 H2; cbn; auto. inversion H1; inversion H2; subst. constructor; [|auto].
  destruct w; nia.
Qed.
Lemma transposed_le : forall sp fs ss, Forall2 le (out_shape (Transposed CIRCULAR) sp fs ss) (out_shape (Transposed VALID) sp fs ss).
Proof. induction sp as [|n sp IH]; intros [|f fs] [|s ss]; cbn; auto. constructor; [lia|auto]. Qed.
Lemma circular_out : forall sp fs ss, out_shape (Transposed SAME) sp fs ss = out_shape (Transposed CIRCULAR) sp fs ss.
Proof. induction sp as [|n sp IH]; intros [|f fs] [|s ss]; cbn; auto. rewrite IH. reflexivity. Qed.
Lemma Forall2_interleave : forall l l' : list nat, Forall2 le l l' -> Forall2 le (interleave l l) (interleave l' l').
Proof. induction 1; cbn; auto. Qed.
Lemma Forall2_le_rev : forall l l' : list nat, Forall2 le l l' -> Forall2 le (rev l) (rev l').
Proof. induction 1; cbn; auto. apply Forall2_app; auto. Qed.
Lemma lsum_lsum_div {A} (l : list A) f c : lsum l (fun a => f a / c) = lsum l f / c.
Proof. apply lsum_div. Qed.

Lemma reverse_zipped_shape (B sp : list nat) : reverse_zipped_list 0%nat (B ++ interleave sp sp) (length B) = B ++ interleave (rev sp) (rev sp).
Proof.
  unfold reverse_zipped_list. rewrite firstn_app_l by reflexivity. f_equal. rewrite app_length, interleave_length by reflexivity.
  replace (length sp + length sp)%nat with (2 * length sp)%nat by lia.
  rewrite reverse_zipped_source_rev.
  assert (K : forall l l' : list nat, length l = length l' -> rev_pairs (interleave l l') = interleave (rev l) (rev l')).
  { induction l as [|a l IH]; intros [|b l'] H; try discriminate; [reflexivity|]. cbn in H |- *. rewrite IH by lia. rewrite interleave_app by (rewrite !rev_length; lia). reflexivity. }
  rewrite <- K by reflexivity.
  assert (M : forall (h : nat -> nat) m l, length l = (2 * m)%nat -> map h (rev_pairs l) = rev_pairs (map h l)).
  { intros h m. induction m as [|m IH]; intros [|a [|b l]] H; cbn in H; try lia; [reflexivity|]. cbn [rev_pairs map]. rewrite map_app, IH by (cbn; lia). reflexivity. }
  rewrite (M _ (length sp)) by apply seq_length. f_equal.
  transitivity (map (fun j => nth j (interleave sp sp) 0%nat) (seq 0 (2 * length sp))).
  - rewrite map_seq_shift. apply map_ext. intros j. apply nth_back.
  - replace (2 * length sp)%nat with (length (interleave sp sp)) by (rewrite interleave_length by reflexivity; lia). apply map_nth_seq_all.
Qed.

Theorem transpose_ok (t : tensor R) fs ss (pad : padding) B sp :
  geom_fits (mkG (Transposed pad) fs ss) sp -> shape t = B ++ interleave sp sp -> B <> [] ->
  let out := out_shape (Transposed pad) sp fs ss in
  exists u, full_spatial_transpose t fs ss pad (length B) = Ok u
    /\ shape u = B ++ interleave (rev out) (rev out)
    /\ forall i p q, in_range B i -> in_range out p -> in_range out q ->
         entry u (i ++ interleave (rev p) (rev q))
         = lsum (locs fs) (fun k => read2 (fun a b => entry t (i ++ interleave a b)) (loc_at (Transposed pad) sp fs ss p k) (loc_at (Transposed pad) sp fs ss q k)) / INR (vol fs).
Proof.
  intros (L1 & L2 & P1 & P2 & P3) Sh HB out. cbn [g_filter g_strides] in *.
  unfold full_spatial_transpose. assert (ndim t =? 0 = false)%nat as ->.
  { apply Nat.eqb_neq. unfold ndim. rewrite Sh, app_length. destruct B; [congruence|cbn; lia]. }
  unfold full_spatial_loop.
  destruct pad; cbv zeta;
  [destruct (loop_all _ fs ss B sp (Transposed VALID) t sp one_channel L1 L2 P1 P2 eq_refl P3 Sh) as (u & Eu & Su & Ru); rewrite Eu; exists u; auto
  |destruct (loop_all _ fs ss B sp (Transposed SAME) t sp one_channel L1 L2 P1 P2 eq_refl P3 Sh) as (u & Eu & Su & Ru); rewrite Eu; exists u; auto|].
  destruct (loop_all _ fs ss B sp (Transposed VALID) t sp one_channel L1 L2 P1 P2 eq_refl P3 Sh) as (v & Ev & Sv & Rv); rewrite Ev; cbn [bind]. clear Ev.
  set (Xs := out_shape (Transposed VALID) sp fs ss) in *. fold out. 
  assert (LX : length Xs = length sp) by (apply out_shape_length; auto).
  assert (LO : length out = length sp) by (apply out_shape_length; auto).
  unfold pool_transpose. cbn [shape]. rewrite Sh, firstn_app_l, skipn_app_l by reflexivity.
  rewrite !double_interleave, out_shape_pairs, circular_out. fold out. rewrite reverse_zipped_shape.
  destruct (unpad_ok v B (interleave (rev Xs) (rev Xs)) (interleave (rev out) (rev out))) as (Su & Ru); auto.
  { rewrite !interleave_length, !rev_length by reflexivity. lia. }
  { apply Forall2_interleave, Forall2_le_rev, transposed_le. }
  set (u := same_pad_for_filter_shape_transpose _ _ _) in *.
  exists u. split; [reflexivity|]. split; [exact Su|]. intros i p q Hi Hp Hq.
  pose proof (in_range_length _ _ Hp) as Lp. pose proof (in_range_length _ _ Hq) as Lq.
  rewrite Ru; auto. 2:{ rewrite !interleave_length by (rewrite ?rev_length; lia). rewrite !rev_length. lia. }
  set (G := fun a b => entry t (i ++ interleave a b)) in *.
  rewrite fold_windows_pairs, lsum_locs_pairs, fold_windows_rev by lia.
  set (W := fold_windows Xs out). assert (LW : length W = length sp) by (unfold W; rewrite fold_windows_length; lia).
  transitivity (lsum (locs W) (fun m => lsum (locs W) (fun m' => lsum (locs fs) (fun k =>
     read2 G (obind (folded Xs out p m) (fun x => loc_at (Transposed VALID) sp fs ss x k)) (obind (folded Xs out q m') (fun x => loc_at (Transposed VALID) sp fs ss x k)) / INR (vol fs))))).
  - rewrite lsum_locs_rev. apply lsum_ext. intros m Hm. apply in_locs in Hm. pose proof (in_shape_length _ _ Hm) as Lm.
    rewrite lsum_locs_rev. apply lsum_ext. intros m' Hm'. apply in_locs in Hm'. pose proof (in_shape_length _ _ Hm') as Lm'.
    rewrite folded_pairs by (rewrite ?rev_length; lia). rewrite !folded_rev by lia.
    destruct (folded Xs out p m) as [x|] eqn:Ex; cbn [option_map obind].
    2:{ cbn [read1 read2]. rewrite lsum_zero; [reflexivity|]. intros k _. unfold Rdiv. ring. }
    destruct (folded Xs out q m') as [y|] eqn:Ey; cbn [option_map obind].
    2:{ cbn [read1 read2]. rewrite lsum_zero; [reflexivity|]. intros k _. unfold read2, Rdiv. destruct (loc_at _ sp fs ss x k); ring. }
    cbn [read1]. rewrite Rv; auto; [|apply (folded_in Xs out p m); auto; lia|apply (folded_in Xs out q m'); auto; lia].
    rewrite <- lsum_div. reflexivity.
  - rewrite <- lsum_div. 
    transitivity (lsum (locs W) (fun m => lsum (locs fs) (fun k => lsum (locs W) (fun m' =>
      read2 G (obind (folded Xs out p m) (fun x => loc_at (Transposed VALID) sp fs ss x k)) (obind (folded Xs out q m') (fun x => loc_at (Transposed VALID) sp fs ss x k)) / INR (vol fs))))).
    { apply lsum_ext. intros m _. apply lsum_swap. }
    rewrite lsum_swap. apply lsum_ext. intros k Hk. apply in_locs in Hk.
    transitivity (lsum (locs W) (fun m => read2 G (obind (folded Xs out p m) (fun x => loc_at (Transposed VALID) sp fs ss x k)) (loc_at (Transposed CIRCULAR) sp fs ss q k) / INR (vol fs))).
    { apply lsum_ext. intros m _. apply (fold_locs sp fs ss q k (fun o => read2 G (obind (folded Xs out p m) (fun x => loc_at (Transposed VALID) sp fs ss x k)) o / INR (vol fs))); auto.
      unfold read2. destruct (obind _ _); unfold Rdiv; ring. }
    apply (fold_locs sp fs ss p k (fun o => read2 G o (loc_at (Transposed CIRCULAR) sp fs ss q k) / INR (vol fs))); auto.
    unfold read2, Rdiv. ring.
Qed.

(** ** Diagonal layouts *)
Lemma pool_transpose_ok (t : tensor R) fs ss pad B sp : shape t = B ++ sp ->
  let u := pool_transpose t fs ss (length B) pad in
  shape u = B ++ out_shape (Transposed pad) sp fs ss
  /\ forall i p, in_range B i -> entry u (i ++ p) = lsum (locs fs) (fun k => read1 (fun a => entry t (i ++ a)) (loc_at (Transposed pad) sp fs ss p k)).
Proof.
  intros Sh u. unfold u, pool_transpose. cbn [shape entry]. rewrite Sh, firstn_app_l, skipn_app_l by reflexivity. split; [reflexivity|].
  intros i p Hi. pose proof (in_range_length _ _ Hi) as Li. rewrite <- Li, firstn_app_l, skipn_app_l by reflexivity. reflexivity.
Qed.

Theorem diagonal_transpose_ok (t : tensor R) fs ss (pad : padding) B sp :
  geom_fits (mkG (Transposed pad) fs ss) sp -> shape t = B ++ sp -> B <> [] ->
  let out := out_shape (Transposed pad) sp fs ss in
  let u := conv_diagonal_spatial_transpose t fs ss pad (length B) in
  shape u = B ++ out
  /\ forall i p, in_range B i -> in_range out p ->
       entry u (i ++ p) = lsum (locs fs) (fun k => read1 (fun a => entry t (i ++ a)) (loc_at (Transposed pad) sp fs ss p k)) / INR (vol fs).
Proof.
  intros (L1 & L2 & P1 & P2 & P3) Sh HB out u. cbn [g_filter g_strides] in *. unfold u, conv_diagonal_spatial_transpose. assert (ndim t =? 0 = false)%nat as ->.
  { apply Nat.eqb_neq. unfold ndim. rewrite Sh, app_length. destruct B; [congruence|cbn; lia]. }
  cbv zeta. destruct pad.
  - destruct (pool_transpose_ok t fs ss VALID B sp Sh) as (Sv & Rv). split; [exact Sv|]. intros i p Hi Hp. unfold tmap. cbn [entry]. rewrite Rv by auto. reflexivity.
  - destruct (pool_transpose_ok t fs ss SAME B sp Sh) as (Sv & Rv). split; [exact Sv|]. intros i p Hi Hp. unfold tmap. cbn [entry]. rewrite Rv by auto. reflexivity.
  - destruct (pool_transpose_ok t fs ss VALID B sp Sh) as (Sv & Rv). destruct (pool_transpose_ok t fs ss SAME B sp Sh) as (Ss & _). rewrite Ss, circular_out. fold out.
    set (v := pool_transpose t fs ss (length B) VALID) in *. set (Xs := out_shape (Transposed VALID) sp fs ss) in *.
    assert (LX : length Xs = length sp) by (apply out_shape_length; auto).
    assert (LO : length out = length sp) by (apply out_shape_length; auto).
    replace (ndim t) with (ndim v) by (unfold ndim; rewrite Sv, Sh, !app_length; lia).
    destruct (unpad_ok v B Xs out Sv ltac:(lia) (transposed_le sp fs ss)) as (Su & Ru). set (y := same_pad_for_filter_shape_transpose _ _ _) in *.
    split; [exact Su|]. intros i p Hi Hp. pose proof (in_range_length _ _ Hp) as Lp. unfold tmap. cbn [entry]. f_equal. rewrite Ru by (auto; lia).
    set (W := fold_windows Xs out). assert (LW : length W = length sp) by (unfold W; rewrite fold_windows_length; lia).
    transitivity (lsum (locs W) (fun m => lsum (locs fs) (fun k => read1 (fun a => entry t (i ++ a)) (obind (folded Xs out p m) (fun x => loc_at (Transposed VALID) sp fs ss x k))))).
    + apply lsum_ext. intros m Hm. destruct (folded Xs out p m) as [x|]; cbn [read1 obind]; [apply Rv; auto|]. rewrite lsum_zero; [reflexivity|]. reflexivity.
    + rewrite lsum_swap. apply lsum_ext. intros k Hk. apply in_locs in Hk.
      apply (fold_locs sp fs ss p k (fun o => read1 (fun a => entry t (i ++ a)) o)); auto.
Qed.
