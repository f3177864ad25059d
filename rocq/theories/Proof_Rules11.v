(** Products: diagonal axes, over which the Jacobian is mapped. *)
From Coq Require Import Reals ZArith List Arith Lia Lra Bool Permutation.
From Verif Require Import Base Tensor Reshape Model_Net Model_Predict Model_Empirical Model_Structure Model_Aggregate Model_Structured Model_Lax Model_Rules
  Spec_Structure Spec_Structured Spec_Rules Proof_Linalg Proof_Tsum Proof_Einsum Proof_Structure Proof_Structured Proof_Structured2 Proof_Structured3 Proof_Structured4 Proof_Rules Proof_Rules2 Proof_Rules3 Proof_Rules4 Proof_Rules5 Proof_Rules6 Proof_Rules7 Proof_Rules8 Proof_Rules9 Proof_Rules10.
From Verif Require Proof_BranchMask.
Import ListNotations.
Local Open Scope R_scope.

(** * Mapping over slices of the known operand *)

Notation diagonals := (list (nat * (nat * nat))) (only parsing).
Definition outs (D : diagonals) : list nat := map fst D.
Definition owns (D : diagonals) : list nat := map (fun d => fst (snd d)) D.
Definition others (D : diagonals) : list nat := map (fun d => snd (snd d)) D.

Lemma update_at : forall (l : list nat) i a x, (x < length l)%nat -> nth x (update l i a) 0%nat = if (i =? x)%nat then a else nth x l 0%nat.
Proof. induction l as [|b l IH]; intros i a x H; [cbn in H; lia|]. destruct i as [|i], x as [|x]; cbn; try reflexivity. apply IH. cbn in H. lia. Qed.

(** The coordinates [j] of the known operand moved to the slices of output [i]. *)
Fixpoint put (D : diagonals) (i j : list nat) : list nat :=
  match D with [] => j | (o, (_, b)) :: D => put D i (update j b (nth o i 0%nat)) end.
Fixpoint slices (D : diagonals) (i : list nat) (u : tensor R) : tensor R :=
  match D with [] => u | (o, (_, b)) :: D => slice_at b (nth o i 0%nat) (slices D i u) end.
Lemma slices_entry : forall D i u j, entry (slices D i u) j = entry u (put D i j).
Proof. induction D as [|(o & w & b) D IH]; intros i u j; cbn [slices put slice_at entry]; auto. Qed.
Lemma update_trimmed sh b l : update (trimmed l sh) b 1%nat = trimmed (b :: l) sh.
Proof.
  apply list_nth_eq; [now rewrite update_length, !trimmed_len|]. rewrite update_length, trimmed_len. intros a Ha. rewrite update_at by (now rewrite trimmed_len). rewrite !trimmed_at by auto.
  unfold mem. cbn [existsb]. fold (mem a l). rewrite (Nat.eqb_sym a b). now destruct (Nat.eqb_spec b a).
Qed.
Lemma slices_shape : forall D i u, shape (slices D i u) = trimmed (others D) (shape u).
Proof. induction D as [|(o & w & b) D IH]; intros i u; cbn; [now rewrite trimmed_nil|]. now rewrite IH, update_trimmed. Qed.
Lemma put_length : forall D i j, length (put D i j) = length j.
Proof. induction D as [|(o & w & b) D IH]; intros i j; cbn; auto. now rewrite IH, update_length. Qed.
Lemma put_out : forall D i j a, ~ In a (others D) -> nth a (put D i j) 0%nat = nth a j 0%nat.
Proof.
  induction D as [|(o & w & b) D IH]; intros i j a H; cbn; auto. cbn in H. rewrite IH by tauto. destruct (Nat.lt_ge_cases a (length j)) as [L|L].
  - rewrite update_at by auto. destruct (Nat.eqb_spec b a) as [->|]; auto. tauto.
  - rewrite !nth_overflow; auto. now rewrite update_length.
Qed.
Lemma put_in : forall D i j o w b, NoDup (others D) -> In (o, (w, b)) D -> (b < length j)%nat -> nth b (put D i j) 0%nat = nth o i 0%nat.
Proof.
  induction D as [|(o' & w' & b') D IH]; intros i j o w b N I L; [easy|]. cbn in N. inversion N; subst. cbn [put]. destruct I as [I|I].
  - injection I as -> -> ->. rewrite put_out by auto. rewrite update_at by auto. now rewrite Nat.eqb_refl.
  - eapply IH; eauto. now rewrite update_length.
Qed.
Lemma update_zeroed i o l : update (zeroed l i) o 0%nat = zeroed (o :: l) i.
Proof.
  apply list_nth_eq; [now rewrite update_length, !zeroed_length|]. rewrite update_length, zeroed_length. intros a Ha. rewrite update_at by (now rewrite zeroed_length). rewrite !zeroed_nth.
  unfold mem. cbn [existsb]. fold (mem a l). rewrite (Nat.eqb_sym a o). now destruct (Nat.eqb_spec o a).
Qed.

Definition in_axes_at (idx : nat) (d : nat * (nat * nat)) : list (option nat) := pair_at idx (Some (fst (snd d))) (Some (snd (snd d))).

Lemma vmap_one idx W b o (f : list value -> result (tensor R)) u t0 : (idx <= 1)%nat -> (b < ndim u)%nat ->
  f (pair_at idx W (Known (slice_at b 0 u))) = Ok t0 -> (o < length (shape t0))%nat -> nth o (shape t0) 0%nat = 1%nat ->
  exists r, _vmap (pair_at idx None (Some b)) o f (pair_at idx W (Known u)) = Ok r /\ shape r = update (shape t0) o (nth b (shape u) 0%nat) /\
    forall i, entry r i = match f (pair_at idx W (Known (slice_at b (nth o i 0%nat) u))) with Ok t => entry t (update i o 0%nat) | Raise _ => 0 end.
Proof.
  intros Hi Hb Hf Ho Hn. unfold _vmap. assert (E : combine (pair_at idx W (Known u)) (pair_at idx None (Some b)) = pair_at idx (W, None) (Known u, Some b)) by (destruct idx as [|[|]]; [reflexivity|reflexivity|lia]).
  rewrite E. assert (M : mapped_sizes (pair_at idx (W, None) (Known u, Some b)) = Ok [nth b (shape u) 0%nat]).
  { apply Nat.ltb_lt in Hb. destruct idx as [|[|]]; [| |lia]; unfold pair_at; cbn [Nat.eqb mapped_sizes fold_right bind]; rewrite Hb; destruct W; reflexivity. }
  rewrite M. cbn [bind forallb negb].
  assert (S : forall k, map (slice_value k) (pair_at idx (W, None) (Known u, Some b)) = pair_at idx W (Known (slice_at b k u))).
  { intros k. rewrite pair_map. cbn [slice_value]. now destruct W. }
  rewrite S, Hf. cbn [bind]. unfold ndim. apply Nat.ltb_lt in Ho. rewrite Ho, Hn. cbn [Nat.eqb andb]. eexists. split; [reflexivity|]. cbn [shape entry]. split; auto. intros i. now rewrite S.
Qed.

(** Replacing the sizes of the mapped axes. *)
Definition widened (us : list nat) (D : diagonals) (rs : list nat) : list nat :=
  fold_left (fun rs d => update rs (fst d) (nth (snd (snd d)) us 0%nat)) D rs.
Lemma widened_length us : forall D rs, length (widened us D rs) = length rs.
Proof. induction D as [|d D IH]; intros rs; cbn; auto. unfold widened in IH. now rewrite IH, update_length. Qed.
Lemma widened_out us : forall D rs a, ~ In a (outs D) -> nth a (widened us D rs) 0%nat = nth a rs 0%nat.
Proof.
  induction D as [|d D IH]; intros rs a H; cbn; auto. cbn in H. unfold widened in IH. rewrite IH by tauto. destruct (Nat.lt_ge_cases a (length rs)) as [L|L].
  - rewrite update_at by auto. destruct (Nat.eqb_spec (fst d) a); auto. tauto.
  - rewrite !nth_overflow; auto. now rewrite update_length.
Qed.
Lemma widened_in us : forall D rs o w b, NoDup (outs D) -> In (o, (w, b)) D -> (o < length rs)%nat -> nth o (widened us D rs) 0%nat = nth b us 0%nat.
Proof.
  induction D as [|d D IH]; intros rs o w b N I L; [easy|]. cbn in N. inversion N; subst. cbn [widened fold_left]. destruct I as [->|I].
  - fold (widened us D (update rs (fst (o, (w, b))) (nth (snd (snd (o, (w, b)))) us 0%nat))). rewrite widened_out by auto. cbn. rewrite update_at by auto. now rewrite Nat.eqb_refl.
  - fold (widened us D (update rs (fst d) (nth (snd (snd d)) us 0%nat))). eapply IH; eauto. now rewrite update_length.
Qed.

Lemma vmap_all idx W us : (idx <= 1)%nat -> forall (D : diagonals) f rs (E : tensor R -> list nat -> R),
  NoDup (others D) -> NoDup (outs D) -> (forall d, In d D -> (snd (snd d) < length us)%nat /\ (fst d < length rs)%nat /\ nth (fst d) rs 0%nat = 1%nat) ->
  (forall u, shape u = trimmed (others D) us -> exists t, f (pair_at idx W (Known u)) = Ok t /\ shape t = rs /\ forall i, in_range rs i -> entry t i = E u i) ->
  forall u, shape u = us -> exists r, fold_left (fun f d => _vmap (pair_at idx None (Some (snd (snd d)))) (fst d) f) D f (pair_at idx W (Known u)) = Ok r /\
    shape r = widened us D rs /\ forall i, in_range (widened us D rs) i -> entry r i = E (slices D i u) (zeroed (outs D) i).
Proof.
  intros Hi. induction D as [|(o & w & b) D IH]; intros f rs E N1 N2 HD Hf u Hu.
  - destruct (Hf u) as (t & Et & St & Ft). { now rewrite trimmed_nil. } exists t. cbn. split; auto. split; auto. intros i Hr. rewrite Ft by auto. now rewrite zeroed_nil.
  - cbn in N1, N2. inversion N1; subst. inversion N2; subst. cbn [fold_left snd fst].
    destruct (HD (o, (w, b)) ltac:(now left)) as (D1 & D2 & D3). cbn [fst snd] in D1, D2, D3.
    destruct (IH (_vmap (pair_at idx None (Some b)) o f) (update rs o (nth b (shape u) 0%nat)) (fun u i => E (slice_at b (nth o i 0%nat) u) (update i o 0%nat))) with (u := u) as (r & Er & Sr & Fr); auto.
    + intros d I. destruct (HD d ltac:(now right)) as (Q1 & Q2 & Q3). split; auto. rewrite update_length. split; auto. rewrite update_at by auto.
      destruct (Nat.eqb_spec o (fst d)) as [->|]; auto. exfalso. apply H3. now apply (in_map fst) in I.
    + intros u' Hu'. assert (Sl : forall k, shape (slice_at b k u') = trimmed (others ((o, (w, b)) :: D)) (shape u)). { intros k. cbn. rewrite Hu'. apply update_trimmed. }
      destruct (Hf (slice_at b 0 u') (Sl 0%nat)) as (t0 & E0 & S0 & F0).
      assert (Nb : nth b (shape u') 0%nat = nth b (shape u) 0%nat). { rewrite Hu', trimmed_at by auto. apply (proj2 (mem_false _ _)) in H1. unfold others. now rewrite H1. }
      destruct (vmap_one idx W b o f u' t0 Hi) as (r & Er & Sr & Fr); auto; rewrite ?S0; auto. { unfold ndim. now rewrite Hu', trimmed_len. }
      exists r. split; auto. split; [now rewrite Sr, S0, Nb|]. intros i Hr. rewrite Fr.
        destruct (Hf (slice_at b (nth o i 0%nat) u') (Sl _)) as (t & Et & St & Ft). rewrite Et. apply Ft. apply in_range_nth in Hr. destruct Hr as [L Hr]. rewrite update_length in L, Hr.
        apply in_range_nth. rewrite update_length. split; auto. intros a Ha. rewrite update_at by lia. specialize (Hr a Ha). rewrite update_at in Hr by auto.
        destruct (Nat.eqb_spec o a) as [Q|Q]; [|exact Hr]. rewrite <- Q, D3. lia.
    + exists r. split; auto. split; auto. intros i Hr. rewrite Fr by auto. cbn [outs map fst slices]. f_equal.
      * f_equal. rewrite zeroed_nth. unfold outs. now rewrite (proj2 (mem_false _ _) H3).
      * apply update_zeroed.
Qed.

(** * Structures with diagonal axes *)

Definition product_with (I : list nat) (idx : nat) (A B : list nat) (D : diagonals) : structure :=
  mkStructure A B I (outs D) (map (in_axes_at idx) D) [] [] [] 0.
Definition product_s (idx : nat) := product_with [idx] idx.

Lemma filter_combine_map {X Y Z} (f : X -> Y) (g : X -> Z) (d : Y -> bool) l :
  filter (fun x => d (fst x)) (combine (map f l) (map g l)) = map (fun x => (f x, g x)) (filter (fun x => d (f x)) l).
Proof. induction l as [|x l IH]; cbn; auto. rewrite IH. now destruct (d (f x)). Qed.
Lemma restrict_product t d b I idx A B D : restrict t d b (product_with I idx A B D) =
  let P := filter (fun x => t (snd x)) (combine A B) in product_with I idx (map fst P) (map snd P) (filter (fun x => d (fst x)) D).
Proof.
  unfold restrict, product_with. cbn [out_trace in_trace in_trace_idxs out_diagonal in_diagonal out_broadcast out_broadcast_idxs in_broadcast_idx]. unfold outs. rewrite filter_combine_map, !map_map. reflexivity.
Qed.
Lemma diagonal_of_product I idx A B D : (idx <= 1)%nat -> diagonal_of idx (product_with I idx A B D) = owns D.
Proof.
  intros Hi. unfold diagonal_of, product_with. cbn [in_diagonal]. rewrite map_map. apply map_ext. intros d. unfold in_axes_at. destruct idx as [|[|]]; [reflexivity|reflexivity|lia].
Qed.
Lemma combine_map_map {X Y Z} (f : X -> Y) (g : X -> Z) l : combine (map f l) (map g l) = map (fun x => (f x, g x)) l.
Proof. induction l as [|x l IH]; cbn; congruence. Qed.

Lemma trim_diagonal_pair I idx ws u A B D : (idx <= 1)%nat -> (I = [idx] \/ I = [] /\ B = []) ->
  _trim_invals (pair_at idx (Undefined ws) (Known u)) (product_with I idx A B D) = Ok (pair_at idx (Undefined (trimmed (B ++ owns D) ws)) (Known u)).
Proof.
  intros Hi HI. unfold _trim_invals, product_with. cbn [in_trace in_trace_idxs in_broadcast in_broadcast_idx out_broadcast out_broadcast_idxs in_diagonal].
  assert (F : foldM (fun i => trim_at i B) I (pair_at idx (Undefined ws) (Known u)) = Ok (pair_at idx (Undefined (trimmed B ws)) (Known u))).
  { destruct HI as [-> | [-> ->]]; [destruct idx as [|[|]]; [reflexivity|reflexivity|lia]|]. cbn [foldM]. now rewrite trimmed_nil. }
  rewrite F. cbn [bind]. change (foldM (fun ax => trim_at 0 [ax]) [] (pair_at idx (Undefined (trimmed B ws)) (Known u))) with (Ok (pair_at idx (Undefined (trimmed B ws)) (Known u))). cbn [bind].
  change (foldM (fun ax => foldM (fun i => trim_at i [ax]) []) [] (pair_at idx (Undefined (trimmed B ws)) (Known u))) with (Ok (pair_at idx (Undefined (trimmed B ws)) (Known u))). cbn [bind].
  assert (G : forall l sh, fold_left (fun v d => match nth idx d None with Some a => trim_value [a] v | None => v end) (map (in_axes_at idx) l) (Undefined sh) = Undefined (trimmed (owns l) sh)).
  { clear -Hi. induction l as [|d l IH]; intros sh; cbn [map fold_left owns]; [now rewrite trimmed_nil|]. destruct (pair_nth idx (Some (fst (snd d))) (Some (snd (snd d))) Hi) as [N _].
    fold (in_axes_at idx d) in N. rewrite (nth_error_nth _ _ _ N). cbn [trim_value]. rewrite IH. f_equal. change (trim_axis [fst (snd d)] sh) with (trimmed [fst (snd d)] sh). rewrite trimmed_trimmed. apply trimmed_ext.
    intros k _. right. rewrite in_app_iff. cbn. tauto. }
  f_equal. transitivity (pair_at idx (fold_left (fun v d => match nth idx d None with Some a => trim_value [a] v | None => v end) (map (in_axes_at idx) D) (Undefined (trimmed B ws))) (Known u)).
  - destruct idx as [|[|]]; [reflexivity|reflexivity|lia].
  - rewrite G. f_equal. f_equal. rewrite trimmed_trimmed. apply trimmed_ext. intros k _. right. rewrite !in_app_iff. tauto.
Qed.

Lemma slices_ext : forall (D : diagonals) i i' u, (forall o, In o (outs D) -> nth o i 0%nat = nth o i' 0%nat) -> slices D i u = slices D i' u.
Proof. induction D as [|(o & w & b) l IH]; intros i i' u H; cbn; auto. rewrite (H o) by (now left). f_equal. apply IH. intros x I. apply H. now right. Qed.
Definition not_reshaped (p : prim) : Prop := match p with ReshapeTo _ => False | _ => True end.
Lemma use_shape_same p ys ws : not_reshaped p -> use_shape p ys ws = ys.
Proof. destruct p; easy. Qed.
Lemma put_ext : forall (D : diagonals) i i' j, (forall o, In o (outs D) -> nth o i 0%nat = nth o i' 0%nat) -> put D i j = put D i' j.
Proof. induction D as [|(o & w & b) l IH]; intros i i' j H; cbn; auto. rewrite (H o) by (now left). apply IH. intros x I. apply H. now right. Qed.

(** In general: the equation may change with the shapes, and the coefficients are functions of the known operand. *)
Section Products.
  Variables (idx : nat) (K : list nat) (valid : prim -> list nat -> list nat -> list nat -> Prop)
            (src : prim -> list nat -> list nat -> list nat -> list nat -> list nat -> list nat)
            (co : prim -> list nat -> list nat -> list nat -> list nat -> list nat -> tensor R -> R).
  Notation JJ p ws us ys u := (sums K (fun k y => Some (src p ws us ys k y)) (fun k y => co p ws us ys k y u)).
  Hypothesis (Hi : (idx <= 1)%nat).
  Hypothesis (Heval : forall p ws us ys t u, valid p ws us ys -> shape t = ws -> shape u = us -> exists o, lax_eval p (pair_at idx t u) = Ok o /\ shape o = ys /\
    forall y, in_range ys y -> entry o y = tsum K (fun k => co p ws us ys k y u * entry t (src p ws us ys k y))).
  Hypothesis (Hsrc : forall p ws us ys k y, valid p ws us ys -> in_range K k -> in_range ys y -> in_range ws (src p ws us ys k y)).
  Hypothesis (Hrule : forall p ws us ys u, valid p ws us ys -> shape u = us -> rule_ok p idx (pair_at idx (Undefined ws) (Known u)) ws ys (JJ p ws us ys u)).

  Lemma products_affine p ws us ys x u : valid p ws us ys -> shape u = us -> affine p idx (pair_at idx x u) ws ys (JJ p ws us ys u).
  Proof.
    intros V Hu. apply sums_affine with (base := fun _ => 0). { intros k y v Hk Hy Ev. injection Ev as <-. eauto. }
    intros t Ht. rewrite pair_update by auto. destruct (Heval p ws us ys t u V Ht Hu) as (o & Eo & So & Fo). exists o. split; auto. split; auto. intros y Hy. rewrite Fo by auto. now rewrite Rplus_0_l.
  Qed.

  Variables (p : prim) (TI : list nat) (ws us ys A B : list nat) (D : diagonals) (u : tensor R).
  Hypothesis (Hp : not_reshaped p) (HI : TI = [idx] \/ TI = [] /\ B = []).
  Hypothesis (V : valid p ws us ys) (Hu : shape u = us).
  Hypothesis (Hs : structure_rule p idx (pair_at idx ws us) ys = Ok (product_with TI idx A B D)).
  Hypothesis (NO : NoDup (A ++ outs D)) (NI : NoDup (B ++ owns D)) (NB : NoDup (others D)) (L : length A = length B).
  Hypothesis (HP : forall a b, In (a, b) (combine A B) -> (a < length ys)%nat /\ (b < length ws)%nat /\ nth a ys 0%nat = nth b ws 0%nat).
  Hypothesis (HD : forall o w b, In (o, (w, b)) D -> (o < length ys)%nat /\ (w < length ws)%nat /\ (b < length us)%nat /\ nth o ys 0%nat = nth w ws 0%nat /\ nth o ys 0%nat = nth b us 0%nat).
  Hypothesis (HQ : forall k y a b, in_range K k -> in_range ys y -> In (a, b) (combine A B) -> nth b (src p ws us ys k y) 0%nat = nth a y 0%nat).
  Hypothesis (HQD : forall k y o w b, in_range K k -> in_range ys y -> In (o, (w, b)) D -> nth w (src p ws us ys k y) 0%nat = nth o y 0%nat).
  Hypothesis (HT : forall t d : nat -> bool, let P := filter (fun x => t (snd x)) (combine A B) in let D' := filter (fun x => d (fst x)) D in
    let ws' := trimmed (map snd P ++ owns D') ws in let us' := trimmed (others D') us in let ys' := trimmed (map fst P ++ outs D') ys in
    let p' := _trim_eqn p idx (pair_at idx (Undefined ws') (Known u)) ys' in
    valid p' ws' us' ys' /\ forall k y, in_range K k -> in_range ys y ->
      src p' ws' us' ys' k (zeroed (map fst P ++ outs D') y) = zeroed (map snd P ++ owns D') (src p ws us ys k y) /\
      co p' ws' us' ys' k (zeroed (map fst P ++ outs D') y) (slices D' y u) = co p ws us ys k y u).

  Lemma products_sound c : common ws c -> sound p idx (pair_at idx (Undefined ws) (Known u)) ws ys c (JJ p ws us ys u).
  Proof.
    intros Hc [|] jr.
    - pose proof (diagonal_of_product TI idx A B D Hi) as DO. destruct (pair_nth idx (Undefined ws) (Known u) Hi) as [N1 N2].
      assert (Msh : map vshape (pair_at idx (Undefined ws) (Known u)) = pair_at idx ws us) by (rewrite pair_map; cbn [vshape]; now rewrite Hu).
      assert (LD : forall (l : diagonals), length (outs l) = length (owns l)) by (intros l; unfold outs, owns; now rewrite !map_length).
      assert (Fit : fits (product_with TI idx A B D) (in_trace (product_with TI idx A B D)) (diagonal_of idx (product_with TI idx A B D)) (use_shape p ys ws) ws).
      { rewrite DO, use_shape_same by auto. unfold fits. cbn [product_with out_trace out_diagonal out_broadcast in_trace]. rewrite !app_nil_r. repeat split; auto.
        - apply Forall_app. split; apply Forall_forall.
          + intros a I. rewrite <- (map_fst_combine A B L) in I. apply in_map_iff in I. destruct I as ((x & z) & <- & I). now apply (HP x z).
          + intros a I. unfold outs in I. apply in_map_iff in I. destruct I as ((o & w & b) & <- & I). now apply (HD o w b).
        - apply Forall_app. split; apply Forall_forall.
          + intros a I. rewrite <- (map_snd_combine A B L) in I. apply in_map_iff in I. destruct I as ((x & z) & <- & I). now apply (HP x z).
          + intros a I. unfold owns in I. apply in_map_iff in I. destruct I as ((o & w & b) & <- & I). now apply (HD o w b).
        - apply Forall_app. split; apply Forall_forall; intros [a b] I; cbn [fst snd].
          + now apply HP.
          + unfold outs, owns in I. rewrite combine_map_map in I. apply in_map_iff in I. destruct I as ((o & w & z) & E & I). cbn in E. injection E as -> ->. now apply (HD a b z). }
      destruct (HT (fun i => mem i (in_trace c)) (fun i => mem i (out_diagonal c))) as [V' S'].
      set (P := filter (fun x => mem (snd x) (in_trace c)) (combine A B)) in *. set (D' := filter (fun x => mem (fst x) (out_diagonal c)) D) in *.
      set (ws' := trimmed (map snd P ++ owns D') ws) in *. set (us' := trimmed (others D') us) in *. set (ys' := trimmed (map fst P ++ outs D') ys) in *.
      set (p' := _trim_eqn p idx (pair_at idx (Undefined ws') (Known u)) ys') in *. set (s' := product_with TI idx (map fst P) (map snd P) D').
      assert (ES : restrict (fun i => mem i (in_trace c)) (fun i => mem i (out_diagonal c)) (fun i => mem i (out_broadcast c)) (product_with TI idx A B D) = s') by apply restrict_product.
      assert (G : get_structure true p (map vshape (pair_at idx (Undefined ws) (Known u))) idx ys = Ok (product_with TI idx A B D)).
      { rewrite Msh. apply (get_structure_ok p idx _ ws); auto.
        - now apply pair_nth.
        - cbn [product_with in_diagonal out_diagonal]. unfold outs. now rewrite !map_length.
        - cbn [product_with in_diagonal out_diagonal]. unfold outs. rewrite combine_map_map. apply forallb_forall. intros [o l] I. apply in_map_iff in I. destruct I as ((o' & w & b) & E & I). cbn in E. injection E as <- <-.
          destruct (HD _ _ _ I) as (Q1 & Q2 & Q3 & Q4 & Q5). rewrite use_shape_same by auto. unfold diagonal_ok, in_axes_at. cbn [fst snd].
          destruct idx as [|[|]]; [| |lia]; unfold pair_at; cbn [Nat.eqb length nth combine forallb fst snd andb]; rewrite <- Q4, <- Q5, !Nat.eqb_refl; reflexivity. }
      assert (AND : structure_and (product_with TI idx A B D) c = Ok s').
      { rewrite <- ES. apply structure_and_restrict; [now cbn|cbn [product_with in_diagonal out_diagonal]; unfold outs; now rewrite !map_length|apply Hc]. }
      assert (NO' : NoDup (map fst P ++ outs D')). { rewrite <- ES in *. destruct (fits_restrict (fun i => mem i (in_trace c)) (fun i => mem i (out_diagonal c)) (fun i => mem i (out_broadcast c)) idx (product_with TI idx A B D) _ _ Fit) as (F1 & _).
        rewrite ES in F1. cbn [s' product_with out_trace out_diagonal out_broadcast] in F1. now rewrite app_nil_r in F1. }
      assert (ND' : NoDup (others D')). { unfold D', others. now apply NoDup_map_filter. }
      assert (NO2 : NoDup (outs D')). { apply NoDup_app_inv in NO'. apply NO'. }
      assert (HD' : forall o w b, In (o, (w, b)) D' -> In (o, (w, b)) D) by (intros o w b I; apply filter_In in I; apply I).
      assert (DI : forall d, In d D' -> (snd (snd d) < length us /\ fst d < length (ys' ++ ws') /\ nth (fst d) (ys' ++ ws') 0 = 1)%nat).
      { intros (o & w & b) I. destruct (HD _ _ _ (HD' _ _ _ I)) as (Q1 & Q2 & Q3 & Q4 & Q5). cbn [fst snd]. split; auto. unfold ys' at 1. rewrite app_length, trimmed_len. split; [lia|].
        unfold ys'. rewrite app_nth1 by (now rewrite trimmed_len). rewrite trimmed_at by auto. replace (mem o (map fst P ++ outs D')) with true; auto. symmetry. apply mem_iff, in_app_iff. right. now apply (in_map fst) in I. }
      destruct (vmap_all idx (Undefined ws') us Hi D' (fun vs => _get_jacobian jr p' ys' vs idx) (ys' ++ ws')
        (fun u i => JJ p' ws' us' ys' u (firstn (length ys') i) (skipn (length ys') i)) ND' NO2 DI) with (u := u) as (r & Er & Sr & Fr); auto.
      { intros u' Hu'. destruct (get_jacobian_ok jr p' idx (pair_at idx (Undefined ws') (Known u')) (Undefined ws') ws' ys' ys' (JJ p' ws' us' ys' u') (JJ p' ws' us' ys' u')) as (j & Ej & Sj & Fj); auto.
        - now apply pair_nth.
        - rewrite pair_map. now apply products_affine.
        - intros y w Hy Hw. now rewrite unravel_ravel.
        - exists j. split; auto. split; auto. intros i Hr. apply in_range_app_inv in Hr. destruct Hr as (i1 & i2 & -> & R1 & R2). rewrite Fj by auto. pose proof (in_range_length _ _ R1) as L1. rewrite <- L1, firstn_app, firstn_all, Nat.sub_diag, firstn_O, app_nil_r, skipn_app, skipn_all, Nat.sub_diag. reflexivity. }
      set (M := combine (outs D') (owns D')).
      exists r, s'. split; [|split].
      + unfold dy_dw_of. rewrite G. cbn [bind]. rewrite AND. cbn [bind]. unfold get_item. rewrite N1. cbn [bind].
        assert (C : _trim_cotangents (match p with ReshapeTo _ => vshape (Undefined ws) | _ => ys end) s' = ys').
        { unfold _trim_cotangents. cbn [s' product_with out_trace out_diagonal out_broadcast app]. rewrite trim_axis_trimmed. destruct p; easy. }
        assert (HI' : TI = [idx] \/ TI = [] /\ map snd P = []). { destruct HI as [E|[E E']]; [now left|right]. split; auto. unfold P. rewrite E'. now destruct A. }
        rewrite C. unfold s' at 1. rewrite trim_diagonal_pair by auto. cbn [bind]. fold ws' p'.
        match goal with |- context [fold_left ?ff ?ll ?jj] => assert (FL : fold_left ff ll jj = fold_left (fun h d => _vmap (pair_at idx None (Some (snd (snd d)))) (fst d) h) D' jj) end.
        { cbn [s' product_with in_diagonal out_diagonal]. unfold outs. rewrite combine_map_map. generalize (fun vs : list value => _get_jacobian jr p' ys' vs idx).
          clear -Hi. induction D' as [|d l IH]; intros f; cbn [map fold_left fst snd]; auto. rewrite IH. do 2 f_equal. unfold in_axes_at, diagonal_in_axes. destruct idx as [|[|]]; [reflexivity|reflexivity|lia]. }
        rewrite FL, Er. reflexivity.
      + rewrite <- ES. apply fits_restrict. exact Fit.
      + rewrite use_shape_same by auto. unfold s' at 3. rewrite diagonal_of_product by auto. cbn [s' product_with in_trace].
        assert (Wd : widened us D' (ys' ++ ws') = trimmed (map fst P) ys ++ ws').
        { apply list_nth_eq. { unfold ys'. now rewrite widened_length, !app_length, !trimmed_len. } rewrite widened_length. unfold ys' at 1. rewrite app_length, trimmed_len. intros a Ha.
          destruct (in_dec Nat.eq_dec a (outs D')) as [I|I].
          - assert (I0 := I). unfold outs in I. apply in_map_iff in I. destruct I as ((o & w & b) & E & I). cbn in E. subst o. destruct (HD _ _ _ (HD' _ _ _ I)) as (Q1 & Q2 & Q3 & Q4 & Q5).
            rewrite (widened_in us D' _ a w b) by (auto; unfold ys'; rewrite app_length, trimmed_len; lia). rewrite app_nth1 by (now rewrite trimmed_len). rewrite trimmed_at by auto.
            replace (mem a (map fst P)) with false; auto. symmetry. apply mem_false. intros J. apply NoDup_app_inv in NO'. destruct NO' as (_ & _ & X). now apply (X a).
          - rewrite widened_out by auto. destruct (Nat.lt_ge_cases a (length ys)) as [La|La].
            + unfold ys'. rewrite !app_nth1 by (now rewrite trimmed_len). rewrite !trimmed_at by auto. unfold mem. rewrite existsb_app. fold (mem a (map fst P)) (mem a (outs D')). rewrite (proj2 (mem_false a (outs D')) I). now rewrite orb_false_r.
            + unfold ys'. rewrite !app_nth2 by (now rewrite trimmed_len). now rewrite !trimmed_len. }
        split. { rewrite Sr, Wd. unfold reduced_shape. cbn [s' product_with out_trace out_broadcast]. now rewrite app_nil_r. }
        intros y w Hy Hw. cbn [s' product_with out_trace out_diagonal out_broadcast]. rewrite app_nil_r.
        pose proof (in_range_length _ _ Hy) as Ly. pose proof (in_range_length _ _ Hw) as Lw.
        assert (Ri : in_range (widened us D' (ys' ++ ws')) (zeroed (map fst P) y ++ zeroed (map snd P ++ owns D') w)).
        { rewrite Wd. apply in_range_app; now apply zeroed_in_range. }
        rewrite Fr by auto.
        assert (Zi : zeroed (outs D') (zeroed (map fst P) y ++ zeroed (map snd P ++ owns D') w) = zeroed (map fst P ++ outs D') y ++ zeroed (map snd P ++ owns D') w).
        { apply list_nth_eq; [now rewrite zeroed_length, !app_length, !zeroed_length|]. rewrite zeroed_length, app_length, !zeroed_length. intros a Ha. rewrite zeroed_nth. destruct (Nat.lt_ge_cases a (length y)) as [La|La].
          - rewrite !app_nth1 by (now rewrite zeroed_length). rewrite !zeroed_nth. unfold mem. rewrite existsb_app. fold (mem a (map fst P)) (mem a (outs D')). destruct (mem a (map fst P)), (mem a (outs D')); reflexivity.
          - replace (mem a (outs D')) with false. { rewrite !app_nth2 by (now rewrite zeroed_length). now rewrite !zeroed_length. }
            symmetry. apply mem_false. intros I. unfold outs in I. apply in_map_iff in I. destruct I as ((o & x & b) & E & I). cbn in E. subst o. destruct (HD _ _ _ (HD' _ _ _ I)) as (Q1 & _). lia. }
        rewrite Zi. assert (Lz : length ys' = length (zeroed (map fst P ++ outs D') y)) by (unfold ys'; now rewrite trimmed_len, zeroed_length).
        rewrite Lz, firstn_app, firstn_all, Nat.sub_diag, firstn_O, app_nil_r, skipn_app, skipn_all, Nat.sub_diag. cbn [skipn app].
        assert (PE : map snd (P ++ M) = map snd P ++ owns D'). { rewrite map_app. f_equal. unfold M. apply map_snd_combine, LD. }
        assert (CP : combine (map fst P) (map snd P) = P) by apply combine_split_id. rewrite CP. fold M. rewrite <- PE.
        apply sums_structure.
        * intros k Hk a b I v Ev. injection Ev as <-. apply in_app_iff in I. destruct I as [I|I].
          -- apply filter_In in I. apply HQ; auto. apply I.
          -- unfold M, outs, owns in I. rewrite combine_map_map in I. apply in_map_iff in I. destruct I as ((o & x & z) & E & I). cbn in E. injection E as <- <-. eapply HQD; eauto.
        * intros k Hk v Ev. injection Ev as <-. rewrite Lw. apply in_range_length. eapply Hsrc; eauto.
        * intros k Hk. destruct (S' k y Hk Hy) as [S1 S2]. rewrite PE. cbn [option_map]. split; [now rewrite S1|]. rewrite <- S2. f_equal. apply slices_ext.
          intros o I'. assert (I0 := I'). unfold outs in I'. apply in_map_iff in I'. destruct I' as ((o' & x & b) & E & I'). cbn in E. subst o'. destruct (HD _ _ _ (HD' _ _ _ I')) as (Q1 & _).
          rewrite app_nth1 by (rewrite zeroed_length; lia). rewrite zeroed_nth. replace (mem o (map fst P)) with false; auto. symmetry. apply mem_false. intros J. apply NoDup_app_inv in NO'. destruct NO' as (_ & _ & X). now apply (X o).
    - edestruct (no_rules p idx (pair_at idx (Undefined ws) (Known u)) ws ys c (JJ p ws us ys u) (JJ p ws us ys u) jr) as (r & Er & F & G); auto.
      + now apply pair_nth.
      + rewrite pair_map. now apply products_affine.
      + now rewrite use_shape_same.
      + rewrite use_shape_same by auto. intros y w Hy Hw. now rewrite unravel_ravel.
      + rewrite use_shape_same by auto. now apply Hrule.
      + exists r, empty_structure. auto.
  Qed.
End Products.

Section Product.
  Variables (p : prim) (idx : nat) (g : R -> R) (K : list nat) (valid : list nat -> list nat -> list nat -> Prop)
            (src oidx : list nat -> list nat -> list nat -> list nat -> list nat -> list nat).
  Notation JJ ws us ys u := (sums K (fun k y => Some (src ws us ys k y)) (fun k y => g (entry u (oidx ws us ys k y)))).
  Hypothesis (Hi : (idx <= 1)%nat) (Hp : not_reshape p).
  Hypothesis (Heval : forall ws us ys t u, valid ws us ys -> shape t = ws -> shape u = us -> exists o, lax_eval p (pair_at idx t u) = Ok o /\ shape o = ys /\
    forall y, in_range ys y -> entry o y = tsum K (fun k => g (entry u (oidx ws us ys k y)) * entry t (src ws us ys k y))).
  Hypothesis (Hsrc : forall ws us ys k y, valid ws us ys -> in_range K k -> in_range ys y -> in_range ws (src ws us ys k y)).
  Hypothesis (Hrule : forall ws us ys u, valid ws us ys -> shape u = us -> rule_ok p idx (pair_at idx (Undefined ws) (Known u)) ws ys (JJ ws us ys u)).
  Let valid' (q : prim) ws us ys := q = p /\ valid ws us ys.

  Lemma product_affine ws us ys x u : valid ws us ys -> shape u = us -> affine p idx (pair_at idx x u) ws ys (JJ ws us ys u).
  Proof.
    intros V Hu. apply (products_affine idx K valid' (fun _ => src) (fun _ ws us ys k y u => g (entry u (oidx ws us ys k y)))); auto.
    - intros q ws0 us0 ys0 t u0 [-> V0]. now apply Heval.
    - intros q ws0 us0 ys0 k y [-> V0]. now apply Hsrc.
    - now split.
  Qed.

  Variables (ws us ys A B : list nat) (D : diagonals) (u : tensor R).
  Hypothesis (V : valid ws us ys) (Hu : shape u = us).
  Hypothesis (Hs : structure_rule p idx (pair_at idx ws us) ys = Ok (product_s idx A B D)).
  Hypothesis (NO : NoDup (A ++ outs D)) (NI : NoDup (B ++ owns D)) (NB : NoDup (others D)) (L : length A = length B).
  Hypothesis (HP : forall a b, In (a, b) (combine A B) -> (a < length ys)%nat /\ (b < length ws)%nat /\ nth a ys 0%nat = nth b ws 0%nat).
  Hypothesis (HD : forall o w b, In (o, (w, b)) D -> (o < length ys)%nat /\ (w < length ws)%nat /\ (b < length us)%nat /\ nth o ys 0%nat = nth w ws 0%nat /\ nth o ys 0%nat = nth b us 0%nat).
  Hypothesis (HQ : forall k y a b, in_range K k -> in_range ys y -> In (a, b) (combine A B) -> nth b (src ws us ys k y) 0%nat = nth a y 0%nat).
  Hypothesis (HQD : forall k y o w b, in_range K k -> in_range ys y -> In (o, (w, b)) D -> nth w (src ws us ys k y) 0%nat = nth o y 0%nat).
  Hypothesis (HT : forall t d : nat -> bool, let P := filter (fun x => t (snd x)) (combine A B) in let D' := filter (fun x => d (fst x)) D in
    let ws' := trimmed (map snd P ++ owns D') ws in let us' := trimmed (others D') us in let ys' := trimmed (map fst P ++ outs D') ys in
    valid ws' us' ys' /\ forall k y, in_range K k -> in_range ys y ->
      src ws' us' ys' k (zeroed (map fst P ++ outs D') y) = zeroed (map snd P ++ owns D') (src ws us ys k y) /\
      put D' y (oidx ws' us' ys' k (zeroed (map fst P ++ outs D') y)) = oidx ws us ys k y).

  Lemma product_sound c : common ws c -> sound p idx (pair_at idx (Undefined ws) (Known u)) ws ys c (JJ ws us ys u).
  Proof.
    intros Hc. assert (Hp' : not_reshaped p) by (destruct p; easy).
    apply (products_sound idx K valid' (fun _ => src) (fun _ ws us ys k y u => g (entry u (oidx ws us ys k y)))) with (TI := [idx]) (us := us) (A := A) (B := B) (D := D); auto.
    - intros q ws0 us0 ys0 t u0 [-> V0]. now apply Heval.
    - intros q ws0 us0 ys0 k y [-> V0]. now apply Hsrc.
    - intros q ws0 us0 ys0 u0 [-> V0]. now apply Hrule.
    - now split.
    - intros t d. destruct (HT t d) as [V' S']. cbv zeta. rewrite trim_eqn_id by auto. split; [now split|]. intros k y Hk Hy. destruct (S' k y Hk Hy) as [S1 S2]. split; [exact S1|]. cbv beta.
      rewrite slices_entry. do 2 f_equal. exact S2.
  Qed.
End Product.
