(** Masks leave unmasked what is heard: DotGeneral. *)
From Coq Require Import Reals ZArith List Arith Lia Lra Bool.
From Verif Require Import Base Tensor Reshape Model_Axes Model_Slice Model_Geom Model_Net Model_Predict Model_Kernel
  Model_Empirical Model_Inputs Model_Conv Model_ConvApply Model_Index Model_Aggregate Model_DotGeneral.
From Verif Require Import Model_Branching Model_Mask Model_Masking Model_MaskingLayers.
From Verif Require Import Spec_Slice Spec_Geom Spec_Conv Spec_ConvApply Spec_Mask Spec_Masking Spec_InitShapes Spec_MaskFits Spec_Heard.
From Verif Require Import Proof_Inputs Proof_Mask Proof_Mask2 Proof_Conv3 Proof_ConvApply Proof_ConvApply2 Proof_Index4 Proof_DotGeneral8 Proof_Attention
  Proof_Axes Proof_Move Proof_Rules4 Proof_Rules14 Proof_Masking Proof_Masking4 Model_InitShapes Proof_InitShapes2 Proof_Masking5 Proof_Masking7 Proof_Tsum Proof_Dot Proof_DotGeneral Proof_Axes2 Proof_BranchMask Proof_Heard Proof_Heard2.
Import ListNotations.
Local Open Scope R_scope.

Definition free (n : nat) (c b : list nat) : list nat := filter (fun a => negb (mem a c) && negb (mem a b)) (seq 0 n).
Definition ql (n : nat) (c b : list nat) (a : nat) : nat := if mem a b then index_of a b else (length b + index_of a (free n c b))%nat.
Definition qr (off n : nat) (c b : list nat) (a : nat) : nat := if mem a b then index_of a b else (length b + off + index_of a (free n c b))%nat.

Lemma free_in n c b a : (a < n)%nat -> ~ In a c -> ~ In a b -> In a (free n c b).
Proof. intros H Hc Hb. apply filter_In. split; [apply in_seq; lia|]. apply mem_false in Hc, Hb. cbv beta. now rewrite Hc, Hb. Qed.
Lemma self_index (l : list nat) a : In a l -> (index_of a l < length l)%nat.
Proof. intros H. exact (pair_index l l a eq_refl H). Qed.

Lemma nth_combine_sizes (sl sr : nat -> nat) : forall l r : list nat, length l = length r ->
  forallb (fun ab => (sl (fst ab) =? sr (snd ab))%nat) (combine l r) = true -> map sl l = map sr r.
Proof.
  induction l as [|a l IH]; intros [|b r] L H; try discriminate; [reflexivity|]. cbn in *. apply andb_true_iff in H as [H1 H2]. apply Nat.eqb_eq in H1.
  f_equal; auto.
Qed.

Lemma app_same {A} : forall (l r u v : list A), length l = length r -> l ++ u = r ++ v -> l = r /\ u = v.
Proof. induction l as [|x l IH]; intros [|z r] u v L E; cbn in *; try discriminate; [auto|]. injection E as -> E. destruct (IH r u v) as [-> ->]; auto. Qed.
Lemma nodup_apart (c b : list nat) a : NoDup (c ++ b) -> In a b -> In a c -> False.
Proof.
  induction c as [|x c IH]; intros N Hb Hc; [exact Hc|]. cbn in N. inversion N as [|? ? Hx N']; subst. destruct Hc as [->|Hc]; [|now apply IH].
  apply Hx, in_or_app. now right.
Qed.
Lemma nodup_left (c b : list nat) : NoDup (c ++ b) -> NoDup c.
Proof. induction c as [|x c IH]; intros N; [constructor|]. cbn in N. inversion N as [|? ? Hx N']; subst. constructor; [|now apply IH]. intros X. apply Hx, in_or_app. now left. Qed.

Lemma dot_view (l r : tensor R) lc rc lb rb y : lax_dot l r lc rc lb rb = Ok y ->
  let Q1 := ql (ndim l) lc lb in let Q2 := qr (length (free (ndim l) lc lb)) (ndim r) rc rb in
  NoDup lc /\ NoDup rc /\ (forall a, In a lc -> (a < ndim l)%nat) /\ (forall a, In a rc -> (a < ndim r)%nat) /\
  csizes lc (shape l) = csizes rc (shape r) /\
  kept_sizes (ndim l) lc Q1 (shape l) (shape y) /\ kept_sizes (ndim r) rc Q2 (shape r) (shape y) /\
  forall j, entry y j = tsum (csizes lc (shape l)) (fun k => entry l (pick_pos (ndim l) lc Q1 k j) * entry r (pick_pos (ndim r) rc Q2 k j)).
Proof.
  unfold lax_dot. fold (free (ndim l) lc lb) (free (ndim r) rc rb). intros E. destruct (_ && _) eqn:B; [|discriminate]. injection E as <-. cbn [shape entry].
  repeat (apply andb_true_iff in B as [B ?]). rename H into Hs, H0 into Hr, H1 into Hl, H2 into Lb, H3 into Lc, H4 into Nr.
  apply nodupb_NoDup in B, Nr. apply Nat.eqb_eq in Lb, Lc. rewrite forallb_forall in Hl, Hr.
  apply (nth_combine_sizes (fun a => nth a (shape l) 0%nat) (fun a => nth a (shape r) 0%nat)) in Hs; [|rewrite !app_length; lia]. rewrite !map_app in Hs.
  assert (Hsc : csizes lc (shape l) = csizes rc (shape r) /\ map (fun a => nth a (shape l) 0%nat) lb = map (fun a => nth a (shape r) 0%nat) rb).
  { apply app_same; [unfold csizes; now rewrite !map_length|exact Hs]. }
  destruct Hsc as [Hsc Hsb].
  assert (D1 : forall a, In a lb -> ~ In a lc) by (intros a Ha Hc; exact (nodup_apart _ _ a B Ha Hc)).
  assert (D2 : forall a, In a rb -> ~ In a rc) by (intros a Ha Hc; exact (nodup_apart _ _ a Nr Ha Hc)).
  pose proof (nodup_left _ _ B) as N1. pose proof (nodup_left _ _ Nr) as N2.
  split; [exact N1|]. split; [exact N2|]. split; [intros a Ha; apply Nat.ltb_lt, Hl, in_or_app; now left|]. split; [intros a Ha; apply Nat.ltb_lt, Hr, in_or_app; now left|].
  split; [exact Hsc|]. split; [|split].
  - split; [reflexivity|]. intros a Ha Hc. unfold ql. destruct (mem a lb) eqn:M.
    + apply mem_In in M. pose proof (self_index _ _ M). rewrite !app_length, !map_length. split; [lia|]. rewrite app_nth1 by (rewrite map_length; lia).
      now rewrite nth_index_of_map.
    + apply mem_false in M. pose proof (free_in _ _ _ _ Ha Hc M) as Hf. pose proof (self_index _ _ Hf). rewrite !app_length, !map_length. split; [lia|].
      rewrite app_nth2 by (rewrite map_length; lia). rewrite map_length, app_nth1 by (rewrite map_length; lia).
      replace (length lb + index_of a (free (ndim l) lc lb) - length lb)%nat with (index_of a (free (ndim l) lc lb)) by lia. now rewrite nth_index_of_map.
  - split; [reflexivity|]. intros a Ha Hc. unfold qr. destruct (mem a rb) eqn:M.
    + apply mem_In in M. pose proof (self_index _ _ M). rewrite !app_length, !map_length. split; [lia|]. rewrite app_nth1 by (rewrite map_length; lia).
      rewrite Hsb. now rewrite nth_index_of_map.
    + apply mem_false in M. pose proof (free_in _ _ _ _ Ha Hc M) as Hf. pose proof (self_index _ _ Hf). rewrite !app_length, !map_length. split; [lia|].
      rewrite app_nth2 by (rewrite map_length; lia). rewrite map_length, app_nth2 by (rewrite map_length; lia). rewrite map_length.
      replace (length rb + length (free (ndim l) lc lb) + index_of a (free (ndim r) rc rb) - length lb - length (free (ndim l) lc lb))%nat with (index_of a (free (ndim r) rc rb)) by lia.
      now rewrite nth_index_of_map.
  - intros j. apply tsum_ext. intros k _. f_equal; f_equal; unfold pick_pos; apply map_ext_in; intros a Ha; apply in_seq in Ha; unfold dot_pick, ql, qr.
    + destruct (mem a lb) eqn:M.
      * apply mem_In in M. pose proof (proj2 (mem_false a lc) (D1 a M)) as ->. apply nth_firstn_lt. now apply self_index.
      * destruct (mem a lc) eqn:Mc; [reflexivity|]. apply mem_false in M, Mc. assert (Hf : In a (free (ndim l) lc lb)) by (apply free_in; auto; lia).
        rewrite nth_firstn_lt by now apply self_index. now rewrite nth_skipn_add.
    + destruct (mem a rb) eqn:M.
      * apply mem_In in M. pose proof (proj2 (mem_false a rc) (D2 a M)) as ->. apply nth_firstn_lt. pose proof (self_index _ _ M). lia.
      * destruct (mem a rc) eqn:Mc; [reflexivity|]. rewrite nth_skipn_add. f_equal. lia.
Qed.

(** Sums of terms that are not negative. *)
Lemma tsum_pos sh (f : list nat -> R) : (forall k, in_range sh k -> 0 <= f k) -> (0 < tsum sh f <-> exists k, in_range sh k /\ 0 < f k).
Proof.
  intros H. split.
  - intros P. destruct (Exists_dec (fun k => 0 < f k) (locs sh)) as [X|X]; [intros k; apply Rlt_dec| |].
    + apply Exists_exists in X as (k & Hk & X). exists k. now rewrite in_locs in Hk.
    + exfalso. rewrite (tsum_zero sh f) in P; [lra|]. intros k Hk. pose proof (H k Hk). destruct (Rlt_dec 0 (f k)) as [Y|Y]; [|lra].
      exfalso. apply X. apply Exists_exists. exists k. now rewrite in_locs.
  - intros (k0 & Hk & P). rewrite (tsum_ext sh f (fun k => (if list_eq_dec Nat.eq_dec k k0 then 1 else 0) * f k + (if list_eq_dec Nat.eq_dec k k0 then 0 else 1) * f k)).
    + rewrite tsum_plus, tsum_one_hot by exact Hk. assert (0 <= tsum sh (fun k => (if list_eq_dec Nat.eq_dec k k0 then 0 else 1) * f k)); [|lra].
      apply tsum_nonneg. intros k Hk'. pose proof (H k Hk'). destruct (list_eq_dec Nat.eq_dec k k0); lra.
    + intros k _. destruct (list_eq_dec Nat.eq_dec k k0); ring.
Qed.

(** Entries of products with zeros and ones: what both factors say. *)
Lemma product_marks (apply : tensor R -> result (tensor R)) n s j sh (o : tensor R) (po px : list nat -> list nat) (v : bool) :
  (forall x, shape x = s -> exists y, apply x = Ok y /\ entry y j = tsum sh (fun k => entry o (po k) * entry x (px k))) ->
  (forall k, in_range sh k -> in_range s (px k)) ->
  (forall k l, in_range sh k -> in_range sh l -> px k = px l -> k = l) ->
  v = (if Rlt_dec 0 (tsum sh (fun k => nonzero (entry o (po k)) * (if masked n (px k) then 0 else 1))) then false else true) ->
  (v = false <-> told apply n s j).
Proof.
  intros Hf Hr Hi ->. rewrite (linear_told apply n s j sh 0 (fun k => entry o (po k)) px); auto.
  2:{ intros x S. destruct (Hf x S) as (y & E & V). exists y. split; [exact E|]. rewrite V. ring. }
  set (f := fun k => _ * _).
  assert (NN : forall k, in_range sh k -> 0 <= f k) by (intros k _; unfold f, nonzero; destruct (Req_EM_T _ 0), (masked n (px k)); lra).
  assert (PF : forall k, 0 < f k <-> entry o (po k) <> 0 /\ masked n (px k) = false).
  { intros k. unfold f, nonzero. destruct (Req_EM_T (entry o (po k)) 0), (masked n (px k)); split; intros; try lra; try easy; intuition lra || (intuition congruence). }
  pose proof (tsum_pos sh f NN) as TP. destruct (Rlt_dec 0 (tsum sh f)) as [X|X0].
  - split; [intros _|reflexivity]. apply TP in X as (k & Hk & X). exists k. apply PF in X as []. auto.
  - split; [discriminate|]. intros (k & Hk & X). exfalso. apply X0, TP. exists k. split; [exact Hk|]. apply PF. tauto.
Qed.

Lemma clip_clip l s i : Forall2 (fun s n => s = n \/ s = 1)%nat l s -> clip l (clip s i) = clip l i.
Proof.
  intros H. revert i. induction H as [|a b l s Hab H IH]; intros [|x i]; cbn; try reflexivity. unfold clip in IH. rewrite IH. f_equal.
  destruct (Nat.eqb_spec a 1); [reflexivity|]. destruct Hab as [->|]; [|contradiction]. destruct (Nat.eqb_spec b 1); [contradiction|reflexivity].
Qed.

Lemma half_input n C q s zs ns t tw k j : kept_sizes n C q zs tw -> length tw = length t ->
  csizes C zs = csizes C s -> Forall2 (fun s n => s = n \/ s = 1)%nat ns zs -> in_range (csizes C s) k -> in_range t j ->
  clip ns (pick_pos n C q k (clip tw j)) = clip ns (pick_pos n C q k j).
Proof.
  intros K2 L E Sh Hk Hj. rewrite <- E in Hk. apply range_nth in Hj as [Lj _]. pose proof (proj1 (proj1 (range_nth _ _) Hk)) as Lk. unfold csizes in Lk at 1. rewrite map_length in Lk.
  rewrite <- (clip_id _ _ Hk) at 1. rewrite <- (pick_clip n C q zs tw k j K2 Lk) by lia. now apply clip_clip.
Qed.
Lemma half_other n C q so t tw k j : kept_sizes n C q so t -> kept_sizes n C q so tw -> length tw = length t ->
  in_range (csizes C so) k -> in_range t j -> pick_pos n C q k (clip tw j) = pick_pos n C q k j.
Proof.
  intros K1 K2 L Hk Hj. pose proof (pick_range n C q so t k j K1 Hk Hj) as HR. apply range_nth in Hj as [Lj _]. pose proof (proj1 (proj1 (range_nth _ _) Hk)) as Lk.
  unfold csizes in Lk at 1. rewrite map_length in Lk. rewrite <- (clip_id _ _ Hk) at 1. rewrite <- (pick_clip n C q so tw k j K2 Lk) by lia. now apply clip_id.
Qed.

Lemma broadcast_inv {A} s (m z : tensor A) : Model_Mask.broadcast_to s m = Ok z ->
  shape z = s /\ Forall2 (fun s n => s = n \/ s = 1)%nat (shape m) s /\ forall i, entry z i = entry m (clip (shape m) i).
Proof.
  unfold Model_Mask.broadcast_to. destruct (_ && _) eqn:B; [|discriminate]. intros E. injection E as <-. cbn [shape entry]. split; [reflexivity|]. split; [|reflexivity].
  apply andb_true_iff in B as [L B]. apply Nat.eqb_eq in L. revert s L B. induction (shape m) as [|a l IH]; intros [|b s] L B; try discriminate; constructor; cbn in *.
  - apply andb_true_iff in B as [B _]. apply orb_true_iff in B as [B|B]; apply Nat.eqb_eq in B; auto.
  - apply andb_true_iff in B as [_ B]. apply IH; auto.
Qed.

Section Layers.
Variable kernel_fn : tree (kernel R) -> result (tree (kernel R)).

Theorem dot_marks other il dn zc p : marks_unheard any_mask (dot_general_fn kernel_fn other il dn zc) p.
Proof.
  apply array_marks. intros x n y a F _ E M j Hj. cbn [maskf] in M. pose proof (fits_length _ _ F) as N.
  pose proof M as M0. unfold dot_mask in M. apply bind_ok in M as (ai & Ea & M). apply bind_ok in M as (ci & Eci & M). rewrite N, Ea in Eci. injection Eci as <-.
  apply bind_ok in M as (z & Ez & M). apply rmap_ok in M as (w & Ew & ->). apply broadcast_inv in Ez as (Sz & Fz & Vz).
  apply fits_shorter in F. set (X := tmap (fun b : bool => if b then 0 else 1) z) in *.
  assert (SX : Forall2 (fun s n => s = n \/ s = 1)%nat (shape X) (shape x)).
  { change (shape X) with (shape z). rewrite Sz. destruct (shorter_upd_same ai _ _ F) as [Y|Y]; [exact Y|]. pose proof (proj1 (py_index_names _ _ _ Ea)). lia. }
  assert (LW : length (shape w) = length (shape y)).
  { apply (Forall2_length _ _ _ (dot_fn_shorter other (tmap nonzero other) il dn x X y w eq_refl SX E Ew)). }
  assert (NX : ndim X = ndim x) by exact (Forall2_length _ _ _ SX).
  rewrite <- Sz in Fz. change (shape z) with (shape X) in Fz.
  unfold dot_fn, lax_dot_z in E, Ew. destruct dn as [[zlc zrc] [zlb zrb]].
  assert (AP : forall x0, shape x0 = shape x -> exists y0, dot_fn other il ((zlc, zrc), (zlb, zrb)) x0 = Ok y0).
  { intros x0 S0. unfold dot_fn, lax_dot_z. destruct il; (destruct (forallb _ _); [|discriminate]).
    - pose proof (lax_dot_shape other x other x0 _ _ _ _ y eq_refl (eq_sym S0) E) as Y. apply rmap_ok in Y as (y0 & Y & _). eauto.
    - pose proof (lax_dot_shape x other x0 other _ _ _ _ y (eq_sym S0) eq_refl E) as Y. apply rmap_ok in Y as (y0 & Y & _). eauto. }
  destruct il; (destruct (forallb _ _) eqn:FB; [|discriminate]); set (lc := map Z.to_nat zlc) in *; set (rc := map Z.to_nat zrc) in *; set (lb := map Z.to_nat zlb) in *; set (rb := map Z.to_nat zrb) in *.
  - pose proof (dot_view _ _ _ _ _ _ _ E) as (N1 & N2 & L1 & L2 & CS & K1 & K2 & V). pose proof (dot_view _ _ _ _ _ _ _ Ew) as (_ & _ & _ & _ & CSw & K1w & K2w & Vw).
    rewrite NX in K2w. change (ndim (tmap nonzero other)) with (ndim other) in *. change (shape (tmap nonzero other)) with (shape other) in *.
    set (Q1 := ql _ _ _) in *. set (Q2 := qr _ _ _ _) in *.
    apply (product_marks _ n (shape x) j (csizes rc (shape x)) other (fun k => pick_pos (ndim other) lc Q1 k j) (fun k => pick_pos (ndim x) rc Q2 k j)).
    + intros x0 S0. destruct (AP x0 S0) as (y0 & E0). exists y0. split; [exact E0|]. unfold dot_fn, lax_dot_z in E0. rewrite FB in E0.
      pose proof (dot_view _ _ _ _ _ _ _ E0) as (_ & _ & _ & _ & CS0 & _ & _ & V0). rewrite V0, CS0, S0. unfold ndim in *. rewrite S0. reflexivity.
    + intros k Hk. eapply pick_range; eauto.
    + intros k l Hk Hl. eapply pick_inj; eauto.
    + unfold masked at 1. cbn [tmap shape entry]. rewrite Vw. rewrite CS, <- CS. rewrite (tsum_ext _ _ (fun k => nonzero (entry other (pick_pos (ndim other) lc Q1 k j)) * (if masked n (pick_pos (ndim x) rc Q2 k j) then 0 else 1))); [reflexivity|].
      intros k Hk. rewrite NX. fold Q2. rewrite (half_other _ _ _ (shape other) (shape y) (shape w)); auto. unfold X. cbn [tmap entry]. rewrite Vz. unfold masked.
      rewrite (half_input _ _ _ (shape x) (shape X) (shape n) (shape y) (shape w)); auto; [congruence|now rewrite <- CS].
  - pose proof (dot_view _ _ _ _ _ _ _ E) as (N1 & N2 & L1 & L2 & CS & K1 & K2 & V). pose proof (dot_view _ _ _ _ _ _ _ Ew) as (_ & _ & _ & _ & CSw & K1w & K2w & Vw).
    rewrite NX in K1w, K2w. change (ndim (tmap nonzero other)) with (ndim other) in *. change (shape (tmap nonzero other)) with (shape other) in *.
    set (Q1 := ql _ _ _) in *. set (Q2 := qr _ _ _ _) in *.
    apply (product_marks _ n (shape x) j (csizes lc (shape x)) other (fun k => pick_pos (ndim other) rc Q2 k j) (fun k => pick_pos (ndim x) lc Q1 k j)).
    + intros x0 S0. destruct (AP x0 S0) as (y0 & E0). exists y0. split; [exact E0|]. unfold dot_fn, lax_dot_z in E0. rewrite FB in E0.
      pose proof (dot_view _ _ _ _ _ _ _ E0) as (_ & _ & _ & _ & CS0 & _ & _ & V0). rewrite V0, S0. unfold ndim in *. rewrite S0. apply tsum_ext. intros k _. apply Rmult_comm.
    + intros k Hk. eapply pick_range; eauto.
    + intros k l Hk Hl. eapply pick_inj; eauto.
    + assert (CX : csizes lc (shape X) = csizes lc (shape x)) by congruence.
      unfold masked at 1. cbn [tmap shape entry]. rewrite Vw, CX. rewrite (tsum_ext _ _ (fun k => nonzero (entry other (pick_pos (ndim other) rc Q2 k j)) * (if masked n (pick_pos (ndim x) lc Q1 k j) then 0 else 1))); [reflexivity|].
      intros k Hk. rewrite Rmult_comm. rewrite NX. change (ndim (tmap nonzero other)) with (ndim other). fold Q1 Q2. cbn [tmap entry].
      rewrite (half_other _ _ _ (shape other) (shape y) (shape w)); auto; [|now rewrite <- CS]. unfold X. cbn [tmap entry]. rewrite Vz. unfold masked.
      rewrite (half_input _ _ _ (shape x) (shape X) (shape n) (shape y) (shape w)); auto.
Qed.
End Layers.
