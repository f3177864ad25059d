(** C79: the backward pass of structured derivatives. *)
From Coq Require Import Reals ZArith List Arith Lia Lra Bool.
From Verif Require Import Base Tensor Reshape Model_Net Model_Empirical Model_Structure Model_Aggregate Model_Structured Model_Lax Model_Rules Model_Backward
  Spec_Empirical Spec_Structured Spec_Rules Spec_Backward Proof_Backward5 Proof_Backward6 Prop_Structured.
Import ListNotations.
Local Open Scope R_scope.

(** A linearized program has a derivative with respect to each of its parameters, and only one. *)
Theorem C79_derivative g v : well_formed g -> In v (g_in g) ->
  (exists j, derivative g v j) /\
  forall j j', derivative g v j -> derivative g v j' ->
    shape j = shape j' /\ forall o w, in_range (g_aval g (g_out g)) o -> in_range (g_aval g v) w -> entry j (o ++ w) = entry j' (o ++ w).
Proof. intros wf I. split; [now apply derivative_exists|]. now apply derivative_unique. Qed.
Print Assumptions C79_derivative.

(** The uses that [_get_df_dys_and_dy_dws] returns for every parameter, cotangents and reduced Jacobians with their
    structures, chain to its derivative (the hypothesis of C55_structured_partial). All uses of a parameter must be diagonal
    along the same axes of it. *)
Theorem C79_backward_partial _s_rules _j_rules limit g axes js :
  well_formed g -> (length (g_eqns g) + 2 <= limit)%nat -> parameters _s_rules g axes js ->
  exists us, _get_df_dys_and_dy_dws _s_rules _j_rules limit g = Ok us /\
    derivatives None (g_aval g (g_out g)) (combine (map (g_aval g) (g_in g)) axes) us js.
Proof. apply backward_correct. Qed.
Print Assumptions C79_backward_partial.

(** The traced axes of a parameter agree in any case: they are those of the combined structure; so do the diagonal
    axes of outputs. *)
Theorem C79_trace_shared _s_rules g s c st st' : well_formed g -> In s (sites g) -> get_structure_cache _s_rules g (s_var s) = Ok c ->
  get_structure _s_rules (s_prim s) (map vshape (s_vals s)) (s_idx s) (s_ys s) = Ok st -> structure_and st c = Ok st' ->
  in_trace st' = in_trace c /\ out_diagonal st' = out_diagonal c.
Proof. intros wf. now apply trace_shared. Qed.
Print Assumptions C79_trace_shared.

(** Axes depend on the shapes of constants only: linearizations at inputs of the same shapes have the same. *)
Theorem C79_same_axes _s_rules g1 g2 v tw dw : similar g1 g2 -> shared_axes _s_rules g1 v tw dw -> shared_axes _s_rules g2 v tw dw.
Proof. intros H. now apply sim_axes. Qed.
Print Assumptions C79_same_axes.

Lemma parameters_length sr g axes js : parameters sr g axes js -> length axes = length (g_in g).
Proof. intros [F _]. symmetry. eapply Forall2_length. exact F. Qed.
Lemma map_fst_combine {A B} : forall (l : list A) (m : list B), length m = length l -> map fst (combine l m) = l.
Proof. induction l as [|a l IH]; intros [|b m] L; cbn in L; try lia; auto. cbn. f_equal. apply IH. lia. Qed.

(** Hence structured derivatives compute the neural tangent kernel of the two linearizations, for every choice of
    structure rules and Jacobian rules. *)
Theorem C79_kernel_partial rs tr di _s_rules _j_rules limit g1 g2 axes js1 js2 :
  well_formed g1 -> well_formed g2 -> map (g_aval g1) (g_in g1) = map (g_aval g2) (g_in g2) ->
  (length (g_eqns g1) + 2 <= limit)%nat -> (length (g_eqns g2) + 2 <= limit)%nat ->
  parameters _s_rules g1 axes js1 -> parameters _s_rules g2 axes js2 ->
  same_sizes rs (g_aval g1 (g_out g1)) (g_aval g2 (g_out g2)) -> denotes tr Traced rs -> denotes di Diag rs -> (Z.of_nat (length rs) < 5000)%Z ->
  is_kernel rs (g_aval g1 (g_out g1)) (g_aval g2 (g_out g2)) (jac_dot (map (g_aval g1) (g_in g1)) js1 js2)
    (_structured_derivatives_ntk_fn tr di _s_rules _j_rules limit g1 g2).
Proof.
  intros w1 w2 E L1 L2 P1 P2 SS Ht Hd Lr. destruct (backward_correct _s_rules _j_rules limit g1 axes js1 w1 L1 P1) as (us1 & E1 & D1).
  destruct (backward_correct _s_rules _j_rules limit g2 axes js2 w2 L2 P2) as (us2 & E2 & D2). unfold _structured_derivatives_ntk_fn. rewrite E1. cbn [bind]. rewrite E2. cbn [bind].
  rewrite <- E in D2. pose proof (C55_structured_partial rs _ _ tr di None _ us1 us2 js1 js2 SS Ht Hd Lr (or_introl eq_refl) D1 D2) as K.
  rewrite map_fst_combine in K; [exact K|]. rewrite map_length. exact (parameters_length _ _ _ _ P1).
Qed.
Print Assumptions C79_kernel_partial.

(** Without structure rules nothing is asked of the uses: the programs may even differ. *)
Theorem C79_unstructured rs tr di _j_rules limit g1 g2 js1 js2 :
  well_formed g1 -> well_formed g2 -> map (g_aval g1) (g_in g1) = map (g_aval g2) (g_in g2) ->
  (length (g_eqns g1) + 2 <= limit)%nat -> (length (g_eqns g2) + 2 <= limit)%nat ->
  Forall2 (derivative g1) (g_in g1) js1 -> Forall2 (derivative g2) (g_in g2) js2 ->
  same_sizes rs (g_aval g1 (g_out g1)) (g_aval g2 (g_out g2)) -> denotes tr Traced rs -> denotes di Diag rs -> (Z.of_nat (length rs) < 5000)%Z ->
  is_kernel rs (g_aval g1 (g_out g1)) (g_aval g2 (g_out g2)) (jac_dot (map (g_aval g1) (g_in g1)) js1 js2)
    (_structured_derivatives_ntk_fn tr di false _j_rules limit g1 g2).
Proof.
  intros w1 w2 E L1 L2 D1 D2 SS Ht Hd Lr.
  assert (G : forall g, well_formed g -> forall l, Forall2 (fun v a => shared_axes false g v (fst a) (snd a)) l (repeat ([], []) (length l))) by (intros g w; induction l; cbn; constructor; auto; now apply no_axes).
  assert (Len : length (g_in g1) = length (g_in g2)) by (apply (f_equal (@length _)) in E; now rewrite !map_length in E).
  apply (C79_kernel_partial rs tr di false _j_rules limit g1 g2 (repeat ([], []) (length (g_in g1))) js1 js2); auto; split; auto. rewrite Len. auto.
Qed.
Print Assumptions C79_unstructured.

(** At inputs of the same shapes it is enough that the uses agree in one linearization. *)
Theorem C79_same_shapes_partial rs tr di _s_rules _j_rules limit g1 g2 axes js1 js2 :
  well_formed g1 -> well_formed g2 -> similar g1 g2 -> (length (g_eqns g1) + 2 <= limit)%nat ->
  parameters _s_rules g1 axes js1 -> Forall2 (derivative g2) (g_in g2) js2 ->
  same_sizes rs (g_aval g1 (g_out g1)) (g_aval g2 (g_out g2)) -> denotes tr Traced rs -> denotes di Diag rs -> (Z.of_nat (length rs) < 5000)%Z ->
  is_kernel rs (g_aval g1 (g_out g1)) (g_aval g2 (g_out g2)) (jac_dot (map (g_aval g1) (g_in g1)) js1 js2)
    (_structured_derivatives_ntk_fn tr di _s_rules _j_rules limit g1 g2).
Proof.
  intros w1 w2 SG L1 P1 D2 SS Ht Hd Lr. pose proof SG as (Ea & Ei & Eq & Eo).
  assert (Le : length (g_eqns g1) = length (g_eqns g2)) by (eapply Forall2_length; exact Eq).
  apply (C79_kernel_partial rs tr di _s_rules _j_rules limit g1 g2 axes js1 js2); auto.
  - rewrite <- Ei. apply map_ext. exact Ea. - now rewrite <- Le.
  - split; auto. rewrite <- Ei. destruct P1 as [F _]. clear -F SG. induction F; constructor; auto. now apply (C79_same_axes _s_rules g1).
Qed.
Print Assumptions C79_same_shapes_partial.

(** * A layer: w x + b, and w again *)
Definition ex_aval (v : nat) : list nat := match v with 0 => [2; 3] | _ => [2] end%nat.
Definition ex_in (a : R) : tensor R := mkT [3%nat] (fun i => a * INR (S (nth 0 i 0%nat))).
Definition ex_g (a : R) : program :=
  mkProgram ex_aval [0; 1]%nat
    [mkEquation (DotGeneral [1%nat] [0%nat] [] []) [Var 0; Const (ex_in a)] 2;
     mkEquation Add [Var 2; Var 1] 3;
     mkEquation (ReduceSum [1%nat]) [Var 0] 4;
     mkEquation Add [Var 3; Var 4] 5] 5.

Ltac values := repeat match goal with H : Forall2 value_is _ _ |- _ => inversion H; clear H; subst end; cbn [value_is] in *; subst.
Ltac tensors := repeat match goal with t : tensor R |- _ => let sh := fresh "sh" in let e := fresh "e" in destruct t as [sh e]; cbn [shape] in *; subst sh end.

Lemma ex_wf a : well_formed (ex_g a).
Proof.
  constructor.
  - cbn. repeat constructor; cbn; intuition lia.
  - cbn. repeat split; intros x; cbn; intuition lia.
  - cbn. lia.
  - intros q xs [<-|[<-|[<-|[<-|[]]]]] F; cbn in F; values; cbn in *; tensors; (eexists; split; [reflexivity|reflexivity]).
  - intros q i v [<-|[<-|[<-|[<-|[]]]]] N; cbn; auto. destruct i as [|[|i]]; cbn in N; try easy; [|destruct i; easy]. eexists. reflexivity.
  - intros q i v [<-|[<-|[<-|[<-|[]]]]] _ _; exact Logic.I.
  - intros q [<-|[<-|[<-|[<-|[]]]]]; cbn; auto; right.
    + eexists. split; [right; left; reflexivity|]. cbn. split; [auto|discriminate].
    + eexists. split; [right; right; right; left; reflexivity|]. cbn. split; [auto|discriminate].
    + eexists. split; [right; right; right; left; reflexivity|]. cbn. split; [auto|discriminate].
  - intros [|v]; cbn; lia.
Qed.

Lemma ex_axes a : shared_axes true (ex_g a) 0 [0%nat] [] /\ shared_axes true (ex_g a) 1 [0%nat] [].
Proof.
  split; intros s c st st' I Ev Ec Es Ea; cbn in I; (destruct I as [<-|[<-|[<-|[]]]]; cbn in Ev; try discriminate; vm_compute in Ec; injection Ec as <-; vm_compute in Es; injection Es as <-; vm_compute in Ea; injection Ea as <-; split; reflexivity).
Qed.
(** Its output, and its derivatives. *)
Lemma ex_output a env : runs (ex_g a) env -> forall o, (o < 2)%nat ->
  entry (env 5%nat) [o] = entry (env 0%nat) [o; 0%nat] * (a * 1 + 1) + entry (env 0%nat) [o; 1%nat] * (a * 2 + 1) + entry (env 0%nat) [o; 2%nat] * (a * 3 + 1) + entry (env 1%nat) [o].
Proof.
  intros [Hs Hr] o Ho. pose proof (Hs 0%nat (or_introl eq_refl)) as S0. pose proof (Hs 1%nat (or_intror (or_introl eq_refl))) as S1. cbn [ex_g g_aval ex_aval] in S0, S1.
  assert (E2 := Hr _ (or_introl eq_refl)). assert (E3 := Hr _ (or_intror (or_introl eq_refl))). assert (E4 := Hr _ (or_intror (or_intror (or_introl eq_refl)))).
  assert (E5 := Hr _ (or_intror (or_intror (or_intror (or_introl eq_refl))))). clear Hr Hs. cbn [q_prim q_in q_out map atom_value] in *.
  destruct (env 0%nat) as [s0 e0], (env 1%nat) as [s1 e1]. cbn [shape] in S0, S1. subst s0 s1. cbn in E2. injection E2 as E2. rewrite <- E2 in E3. cbn in E3. injection E3 as E3. cbn in E4. injection E4 as E4.
  rewrite <- E3, <- E4 in E5. cbn in E5. injection E5 as E5. rewrite <- E5. destruct o as [|[|o]]; [| |lia]; cbn; lra.
Qed.
Definition ex_j0 (a : R) : tensor R := mkT [2; 2; 3]%nat (fun i => if (nth 0 i 0 =? nth 1 i 0)%nat then a * INR (S (nth 2 i 0%nat)) + 1 else 0).
Definition ex_j1 : tensor R := mkT [2; 2]%nat (fun i => if (nth 0 i 0 =? nth 1 i 0)%nat then 1 else 0).
Lemma ex_js a : Forall2 (derivative (ex_g a)) [0; 1]%nat [ex_j0 a; ex_j1].
Proof.
  constructor; [|constructor; [|constructor]]; (split; [reflexivity|]); intros env env' R1 R2 K o Ro; cbn in Ro; inversion Ro as [|x ? o' ? Hx Ho]; subst; inversion Ho; subst; cbn [ex_g g_out];
    rewrite (ex_output a env R1 x Hx), (ex_output a env' R2 x Hx).
  - rewrite (K 1%nat) by (cbn; auto). destruct x as [|[|x]]; [| |lia]; cbn; lra.
  - rewrite (K 0%nat) by (cbn; auto). destruct x as [|[|x]]; [| |lia]; cbn; lra.
Qed.
Example C79_example :
  well_formed (ex_g 1) /\ well_formed (ex_g 2) /\ similar (ex_g 1) (ex_g 2) /\
  parameters true (ex_g 1) [([0%nat], []); ([0%nat], [])] [ex_j0 1; ex_j1] /\ parameters true (ex_g 2) [([0%nat], []); ([0%nat], [])] [ex_j0 2; ex_j1] /\
  exists t, _structured_derivatives_ntk_fn [] [] true true 6 (ex_g 1) (ex_g 2) = Ok t /\ shape t = [2; 2]%nat /\ entry t [1; 1]%nat = 50 /\ entry t [0; 1]%nat = 0.
Proof.
  assert (P : forall a, parameters true (ex_g a) [([0%nat], []); ([0%nat], [])] [ex_j0 a; ex_j1]).
  { intros a. split; [|apply ex_js]. constructor; [apply ex_axes|constructor; [apply ex_axes|constructor]]. }
  split; [apply ex_wf|]. split; [apply ex_wf|]. split; [unfold similar; cbn; repeat split; repeat constructor|]. split; [apply P|]. split; [apply P|].
  assert (D : forall r, r <> Full -> denotes [] r [Full]) by (intros r Nr; exists []; split; [reflexivity|]; split; [constructor|]; destruct r; cbn; tauto).
  assert (K : is_kernel [Full] [2%nat] [2%nat] (jac_dot [[2; 3]; [2]]%nat [ex_j0 1; ex_j1] [ex_j0 2; ex_j1]) (_structured_derivatives_ntk_fn [] [] true true 6 (ex_g 1) (ex_g 2))).
  { apply (C79_kernel_partial [Full] [] [] true true 6 (ex_g 1) (ex_g 2) [([0%nat], []); ([0%nat], [])] [ex_j0 1; ex_j1] [ex_j0 2; ex_j1]); auto; try apply (ex_wf 1); try apply (ex_wf 2); try (apply D; discriminate); try (cbn; lia). }
  destruct K as (t & E & Sh & H).
  exists t. split; [exact E|]. split; [exact Sh|]. split.
  - change [1; 1]%nat with (layout [Full] [1%nat] [1%nat]). rewrite H; [|repeat constructor|repeat constructor|cbn; auto]. cbv -[Rplus Rmult Rdiv Rinv INR IZR]. simpl. lra.
  - change [0; 1]%nat with (layout [Full] [0%nat] [1%nat]). rewrite H; [|repeat constructor|repeat constructor|cbn; auto]. cbv -[Rplus Rmult Rdiv Rinv INR IZR]. simpl. lra.
Qed.

(** Refuted when the numbers of examples differ: f(w, x) = w * x with a scale of shape (1, 2) is traced along its first axis at
    one example, and not at two. The contraction raises; so it does for [_j_rules=False]. *)
Definition ex_scale (n : nat) : program :=
  mkProgram (fun v => match v with 0 => [1; 2] | _ => [n; 2] end%nat) [0%nat] [mkEquation Mul [Var 0; Const (mkT [n; 2]%nat (fun _ => 1))] 1] 1.
Lemma ex_scale_wf n : well_formed (ex_scale (S n)).
Proof.
  constructor.
  - cbn. repeat constructor; cbn; intuition lia.
  - cbn. repeat split; intros x; cbn; intuition lia.
  - cbn. lia.
  - intros q xs [<-|[]] F; cbn in F; values; cbn in *; tensors; destruct n; (eexists; split; [reflexivity|reflexivity]).
  - intros q i v [<-|[]] N; cbn. destruct i as [|[|i]]; cbn in N; try easy; [|destruct i; easy]. eexists. reflexivity.
  - intros q i v [<-|[]] _ _; exact Logic.I.
  - intros q [<-|[]]; cbn; auto.
  - intros [|v]; cbn; lia.
Qed.
Lemma ex_scale_j n : (n < 2)%nat -> derivative (ex_scale (S n)) 0 (mkT [S n; 2; 1; 2]%nat (fun i => if (nth 1 i 0 =? nth 3 i 0)%nat then 1 else 0)).
Proof.
  intros Hn. split; [reflexivity|]. intros env env' [Hs Hr] [Hs' Hr'] _ o Ro. assert (S0 := Hs 0%nat (or_introl eq_refl)). assert (S0' := Hs' 0%nat (or_introl eq_refl)).
  assert (E := Hr _ (or_introl eq_refl)). assert (E' := Hr' _ (or_introl eq_refl)). clear Hr Hs Hr' Hs'. cbn [q_prim q_in q_out map atom_value] in *. cbn [ex_scale g_aval g_out] in *.
  destruct (env 0%nat) as [s0 e0], (env' 0%nat) as [s1 e1]. cbn [shape] in S0, S0'. subst s0 s1.
  inversion Ro as [|x ? o' ? Hx Ho]; subst. inversion Ho as [|y ? o'' ? Hy Ho']; subst. inversion Ho'; subst.
  destruct n as [|[|n]]; [| |lia]; cbn in E, E'; injection E as E; injection E' as E'; rewrite <- E, <- E'; (destruct x as [|[|x]]; try lia); (destruct y as [|[|y]]; try lia); cbn; lra.
Qed.
Theorem C79_sizes_refuted : exists g1 g2 js1 js2, well_formed g1 /\ well_formed g2 /\ map (g_aval g1) (g_in g1) = map (g_aval g2) (g_in g2) /\
  Forall2 (derivative g1) (g_in g1) js1 /\ Forall2 (derivative g2) (g_in g2) js2 /\ same_sizes [Full; Traced] (g_aval g1 (g_out g1)) (g_aval g2 (g_out g2)) /\
  (forall _j_rules, _structured_derivatives_ntk_fn [(-1)%Z] [] true _j_rules 3 g1 g2 = Raise NotImplementedError) /\
  exists t, sum_and_contract [(-1)%Z] [] (g_aval g1 (g_out g1)) js1 js2 = Ok t.
Proof.
  exists (ex_scale 1), (ex_scale 2), [mkT [1; 2; 1; 2]%nat (fun i => if (nth 1 i 0 =? nth 3 i 0)%nat then 1 else 0)], [mkT [2; 2; 1; 2]%nat (fun i => if (nth 1 i 0 =? nth 3 i 0)%nat then 1 else 0)].
  split; [apply ex_scale_wf|]. split; [apply ex_scale_wf|]. split; [reflexivity|]. split; [constructor; [apply (ex_scale_j 0); lia|constructor]|].
  split; [constructor; [apply (ex_scale_j 1); lia|constructor]|]. split; [cbn; auto|]. split; [intros []; reflexivity|]. eexists. vm_compute. reflexivity.
Qed.
Print Assumptions C79_sizes_refuted.

(** Refuted for batch axes: the products of a matrix with a vector by rows and by columns are both diagonal along their
    first axes; their common structure keeps that axis, of the rows of the matrix in one and of its columns in the other. The
    contraction of the two uses raises, even at a single input. *)
Definition ex_batch : program :=
  mkProgram (fun _ => [2; 2]%nat) [0%nat]
    [mkEquation (DotGeneral [] [] [0%nat] [0%nat]) [Var 0; Const (mkT [2%nat] (fun _ => 1))] 1;
     mkEquation (DotGeneral [] [] [1%nat] [0%nat]) [Var 0; Const (mkT [2%nat] (fun _ => 1))] 2;
     mkEquation Add [Var 1; Var 2] 3] 3.
Lemma ex_batch_wf : well_formed ex_batch.
Proof.
  constructor.
  - cbn. repeat constructor; cbn; intuition lia.
  - cbn. repeat split; intros x; cbn; intuition lia.
  - cbn. lia.
  - intros q xs [<-|[<-|[<-|[]]]] F; cbn in F; values; cbn in *; tensors; (eexists; split; [reflexivity|reflexivity]).
  - intros q i v [<-|[<-|[<-|[]]]] N; cbn; auto; (destruct i as [|[|i]]; cbn in N; try easy; [|destruct i; easy]); eexists; reflexivity.
  - intros q i v [<-|[<-|[<-|[]]]] _ _; exact Logic.I.
  - intros q [<-|[<-|[<-|[]]]]; cbn; auto; right; (eexists; split; [right; right; left; reflexivity|]; cbn; split; [auto|discriminate]).
  - intros v. cbn. lia.
Qed.
Definition ex_batch_j : tensor R := mkT [2; 2; 2; 2]%nat (fun i =>
  (if (nth 0 i 0 =? nth 2 i 0)%nat && (nth 1 i 0 =? nth 3 i 0)%nat then 1 else 0) + if (nth 0 i 0 =? nth 3 i 0)%nat && (nth 1 i 0 =? nth 2 i 0)%nat then 1 else 0).
Lemma ex_batch_out env : runs ex_batch env -> forall x y, (x < 2)%nat -> (y < 2)%nat -> entry (env 3%nat) [x; y] = entry (env 0%nat) [x; y] + entry (env 0%nat) [y; x].
Proof.
  intros [Hs Hr] x y Hx Hy. assert (S0 := Hs 0%nat (or_introl eq_refl)). assert (E1 := Hr _ (or_introl eq_refl)). assert (E2 := Hr _ (or_intror (or_introl eq_refl))). assert (E3 := Hr _ (or_intror (or_intror (or_introl eq_refl)))).
  clear Hr Hs. cbn [q_prim q_in q_out map atom_value] in *. cbn [ex_batch g_aval] in S0. destruct (env 0%nat) as [s0 e0]. cbn [shape] in S0. subst s0. cbn in E1, E2. injection E1 as E1. injection E2 as E2. rewrite <- E1, <- E2 in E3. cbn in E3. injection E3 as E3.
  rewrite <- E3. destruct x as [|[|x]]; try lia; (destruct y as [|[|y]]; try lia); cbn; lra.
Qed.
Theorem C79_batch_axes_refuted : exists g js, well_formed g /\ Forall2 (derivative g) (g_in g) js /\
  (forall _j_rules, _structured_derivatives_ntk_fn [] [] true _j_rules 5 g g = Raise ValueError) /\
  exists t, sum_and_contract [] [] (g_aval g (g_out g)) js js = Ok t.
Proof.
  exists ex_batch, [ex_batch_j]. split; [apply ex_batch_wf|]. split; [|split].
  - constructor; [|constructor]. split; [reflexivity|]. intros env env' R1 R2 _ o Ro. inversion Ro as [|x ? o' ? Hx Ho]; subst. inversion Ho as [|y ? o'' ? Hy Ho']; subst. inversion Ho'; subst. cbn [ex_batch g_out].
    rewrite (ex_batch_out env R1 x y Hx Hy), (ex_batch_out env' R2 x y Hx Hy). destruct x as [|[|x]]; try lia; (destruct y as [|[|y]]; try lia); cbn; lra.
  - intros []; reflexivity.
  - eexists. vm_compute. reflexivity.
Qed.
Print Assumptions C79_batch_axes_refuted.

(** A convolution and a bias of its channels, averaged. *)
Definition ex_cnn : program :=
  mkProgram (fun v => match v with 0 => [2; 1; 2] | 1 => [1; 2; 1] | 4 => [1; 2] | _ => [1; 2; 2] end%nat) [0; 1]%nat
    [mkEquation (ConvGeneralDilated (mkConv [0; 1; 2] [0; 1; 2] [0; 1; 2] [mkConvDim 1 0 0 1 1] 1 1)%nat) [Const (mkT [1; 1; 3]%nat (fun i => INR (nth 2 i 0%nat))); Var 0] 2;
     mkEquation Add [Var 2; Var 1] 3;
     mkEquation (ReduceSum [2%nat]) [Var 3] 4] 4.
Lemma ex_cnn_wf : well_formed ex_cnn.
Proof.
  constructor.
  - cbn. repeat constructor; cbn; intuition lia.
  - cbn. repeat split; intros x; cbn; intuition lia.
  - cbn. lia.
  - intros q xs [<-|[<-|[<-|[]]]] F; cbn in F; values; cbn in *; tensors; (eexists; split; [reflexivity|reflexivity]).
  - intros q i v [<-|[<-|[<-|[]]]] N; cbn; auto. destruct i as [|[|i]]; cbn in N; try easy; [|destruct i; easy]. eexists; reflexivity.
  - intros q i v [<-|[<-|[<-|[]]]] N _; try exact Logic.I. destruct i as [|[|[|i]]]; cbn in N; try easy.
  - intros q [<-|[<-|[<-|[]]]]; cbn; auto; right.
    + eexists. split; [right; left; reflexivity|]. cbn. split; [auto|discriminate].
    + eexists. split; [right; right; left; reflexivity|]. cbn. split; [auto|discriminate].
  - intros [|[|[|[|[|v]]]]]; cbn; lia.
Qed.
Lemma ex_cnn_axes : shared_axes true ex_cnn 0 [0%nat] [] /\ shared_axes true ex_cnn 1 [0; 1]%nat [].
Proof.
  split; intros s c st st' I Ev Ec Es Ea; cbn in I; (destruct I as [<-|[<-|[]]]; cbn in Ev; try discriminate; vm_compute in Ec; injection Ec as <-; vm_compute in Es; injection Es as <-; vm_compute in Ea; injection Ea as <-; split; reflexivity).
Qed.
Example C79_convolution_example : well_formed ex_cnn /\ exists js t, Forall2 (derivative ex_cnn) (g_in ex_cnn) js /\
  _structured_derivatives_ntk_fn [(-1)%Z] [] true true 5 ex_cnn ex_cnn = Ok t /\ shape t = [1; 1]%nat.
Proof.
  split; [apply ex_cnn_wf|]. destruct (C79_derivative ex_cnn 0 ex_cnn_wf) as [(j0 & D0) _]; [cbn; auto|]. destruct (C79_derivative ex_cnn 1 ex_cnn_wf) as [(j1 & D1) _]; [cbn; auto|]. exists [j0; j1].
  assert (K : is_kernel [Full; Traced] [1; 2]%nat [1; 2]%nat (jac_dot [[2; 1; 2]; [1; 2; 1]]%nat [j0; j1] [j0; j1]) (_structured_derivatives_ntk_fn [(-1)%Z] [] true true 5 ex_cnn ex_cnn)).
  { assert (P : parameters true ex_cnn [([0%nat], []); ([0; 1]%nat, [])] [j0; j1]) by (split; [constructor; [apply ex_cnn_axes|constructor; [apply ex_cnn_axes|constructor]]|repeat (constructor; auto)]).
    apply (C79_kernel_partial [Full; Traced] [(-1)%Z] [] true true 5 ex_cnn ex_cnn [([0%nat], []); ([0; 1]%nat, [])] [j0; j1] [j0; j1]); auto using ex_cnn_wf; try (cbn; lia).
    - cbn. auto.
    - exists [1%nat]. split; [reflexivity|]. split; [repeat constructor; cbn; tauto|]. intros i. cbn. destruct i as [|[|i]]; cbn; intuition (try lia; try discriminate).
    - exists []. split; [reflexivity|]. split; [constructor|]. intros i. destruct i as [|[|i]]; cbn; intuition (try lia; try discriminate). }
  destruct K as (t & E & Sh & _). exists t. split; [repeat (constructor; auto)|]. split; [exact E|exact Sh].
Qed.
