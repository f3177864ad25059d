(** Transposed convolutions: windows, finite arrays, kernels (C83). *)
From Coq Require Import Reals List Arith Lia Lra Bool.
From Coquelicot Require Import Coquelicot.
From Verif Require Import Base Tensor Reshape Model_Geom Model_Net Model_Predict Model_Kernel Spec_Geom Spec_Predict Spec_Inputs Spec_Aggregate Spec_Conv Spec_Finite Spec_Transposed Model_Conv
  Model_Finite Model_ConvApply Spec_ConvApply Proof_Finite Proof_Finite6 Proof_Adjoint Proof_ConvApply Proof_ConvApply2 Example_Predict Example_Finite Prop_Conv.
Import ListNotations.
Local Open Scope R_scope.

(** Output position [p] reads input position [a] through tap [k] exactly when, in the
    ordinary convolution with the same arguments on the larger array, [a] reads [p] through
    the flipped tap; and that convolution leads back to the shape of the input. *)
Theorem C83_windows pad sp fs ss p k a :
  geom_fits (transposed pad fs ss) sp -> in_shape (geom_out (transposed pad fs ss) sp) p -> in_shape fs k ->
  geom_out (forward pad fs ss) (geom_out (transposed pad fs ss) sp) = sp
  /\ (geom_at (transposed pad fs ss) sp p k = Some a
      <-> in_shape sp a /\ geom_at (forward pad fs ss) (geom_out (transposed pad fs ss) sp) a (flip fs k) = Some p).
Proof. intros Hg Hp Hk. split; [exact (out_back pad sp fs ss Hg)|exact (windows_back pad sp fs ss p k a Hg Hp Hk)]. Qed.
Print Assumptions C83_windows.

(** The array computed by [apply_fn], ordinary or transposed, with any padding: weighted
    sums of what the windows read. *)
Theorem C83_apply L (W x : tensor R) b N sp C O :
  plain_conv L sp -> shape x = N :: sp ++ [C] -> shape W = cv_filter L ++ [C; O] -> (b = None <-> cv_b L = None) ->
  exists y, conv_apply_fn L (W, b) x = Ok y /\ shape y = N :: geom_out (conv_geom L) sp ++ [O]
    /\ forall i p o, (i < N)%nat -> in_range (geom_out (conv_geom L) sp) p -> (o < O)%nat ->
         act_of y i p o = conv_apply true C (conv_geom L) sp (cv_W L) (cv_b L) (std_of L) (params_of (length sp) W b) (act_of x) i p o.
Proof. exact (apply_ok L W x b N sp C O). Qed.
Print Assumptions C83_apply.

(** The arrays computed by [kernel_fn], in either order and layout, hold the second moments
    of the arrays computed by [apply_fn], channel by channel, and the inner products of
    their gradients. *)
Theorem C83_arrays {Omega} (E : (Omega -> R) -> R) L sp N1 N2 C O (zW zb x1 x2 : Omega -> tensor R) m x1' x2' dx1 dx2 nc (k : kernel R) T :
  expectation E -> plain_conv L sp -> (0 < C)%nat -> good_std (std_of L) ->
  (forall w, shape (zW w) = cv_filter L ++ [C; O]) -> (forall w, shape (x1 w) = N1 :: sp ++ [C]) -> (forall w, shape (x2 w) = N2 :: sp ++ [C]) ->
  let g := conv_geom L in
  let ps := conv_params true C O g sp (cv_b L) in
  let z w := params_of (length sp) (zW w) (bias_of L (zb w)) in
  let a1 w := act_of (x1 w) in let a2 w := act_of (x2 w) in
  let apply_ := conv_apply true C g sp (cv_W L) (cv_b L) (std_of L) in
  let par w := conv_init C g (cv_W L) (cv_b L) (std_of L) (z w) in
  independent_inputs E ps z a1 a2 ->
  (forall w, input_gradient m (x1' w) (dx1 w)) -> (forall w, input_gradient m (x2' w) (dx2 w)) ->
  (forall a, (a < m)%nat -> independent E ps z (fun w => dx1 w a) (fun w => dx2 w a)) ->
  ok_channels nc -> (k_diagonal_spatial k = true -> k_is_reversed k = false) -> nth (k_channel_axis k) (k_shape1 k) 0%nat = C ->
  (forall i j p q, T i j p q = tangent_moment E m C dx1 dx2 i j p q) ->
  covs_of k N1 N2 sp (moment E C a1 a2) T (moment E C a1 a1) (moment E C a2 a2) ->
  exists k' y1 y2, conv_kernel_fn nc L k = Ok k'
    /\ (forall w, conv_apply_fn L (conv_init_fn L (shape (x1 w)) (zW w) (zb w)) (x1 w) = Ok (y1 w) /\ shape (y1 w) = N1 :: geom_out g sp ++ [O])
    /\ (forall w, conv_apply_fn L (conv_init_fn L (shape (x2 w)) (zW w) (zb w)) (x2 w) = Ok (y2 w) /\ shape (y2 w) = N2 :: geom_out g sp ++ [O])
    /\ (forall o, (o < O)%nat -> covs_of k' N1 N2 (geom_out g sp)
          (fun i j p q => E (fun w => act_of (y1 w) i p o * act_of (y2 w) j q o))
          (fun i j p q => E (fun w => own_gradients ps apply_ (par w) (a1 w) (a2 w) i p o j q o + earlier_gradients m (apply_ (par w)) (x1' w) (x2' w) i p o j q o))
          (fun i j p q => E (fun w => act_of (y1 w) i p o * act_of (y1 w) j q o))
          (fun i j p q => E (fun w => act_of (y2 w) i p o * act_of (y2 w) j q o)))
    /\ (forall i j p q o o', (i < N1)%nat -> (j < N2)%nat -> in_range (geom_out g sp) p -> in_range (geom_out g sp) q -> (o < O)%nat -> (o' < O)%nat -> o <> o' ->
          E (fun w => act_of (y1 w) i p o * act_of (y2 w) j q o') = 0).
Proof.
  intros HE HL HC Hstd SW S1 S2 g ps z a1 a2 apply_ par Hind H1 H2 Hdx Hn Hd Hc HT Hk.
  exact (arrays_ok E HE L sp N1 N2 C O zW zb x1 x2 HL HC Hstd SW S1 S2 Hind m x1' x2' dx1 dx2 H1 H2 Hdx nc k T Hn Hd Hc HT Hk).
Qed.
Print Assumptions C83_arrays.

(** There are no transposed convolutions with weights of their own at every position. *)
Theorem C83_unshared nc L (k : kernel R) P x :
  cv_transpose L = true -> cv_shared L = false ->
  conv_kernel_fn nc L k = Raise NotImplementedError /\ conv_apply_fn L P x = Raise NotImplementedError.
Proof. intros H1 H2. unfold conv_kernel_fn, conv_apply_fn. rewrite H1, H2. split; reflexivity. Qed.
Print Assumptions C83_unshared.

(** A transposed convolution on a circle of three positions, filter of size 2, with draws from
    three fair signs; the arrays by hand. *)
Definition ex_tr : conv_layer := mkConv [2]%nat [1]%nat CIRCULAR 2 (Some 1) true 3 true true [0]%nat.
Definition ex_zW (w : signs) : tensor R := let '(a, b, c) := w in mkT [2; 1; 1]%nat (fun i => match i with O :: _ => sg a | _ => sg b end).
Definition ex_zb (w : signs) : tensor R := let '(a, b, c) := w in mkT [1; 1; 1]%nat (fun _ => sg c).
Definition ex_x (_ : signs) : tensor R := mkT [2; 3; 1]%nat (fun i => match i with [i; p; _] => INR (i + p + 1) | _ => 0 end).
Definition ex_cov : tensor R := mkT [2; 2; 3; 3]%nat (fun i => match i with [i; j; p; q] => INR (i + p + 1) * INR (j + q + 1) | _ => 0 end).
Definition ex_tr_kernel : kernel R :=
  mkK ex_cov (Some ex_cov) ex_cov (Some ex_cov) (scalar true) true true false false false [2; 3; 1]%nat [2; 3; 1]%nat 0 2 None None.

Lemma ex_tr_unit : unit_draws average (conv_params true 1 1 (conv_geom ex_tr) [3%nat] (Some 1)) (fun w => params_of 1 (ex_zW w) (bias_of ex_tr (ex_zb w))).
Proof. unfold unit_draws. draws. Qed.
Lemma ex_moment i j p q : moment average 1 (fun w => act_of (ex_x w)) (fun w => act_of (ex_x w)) i j [p] [q] = INR (i + p + 1) * INR (j + q + 1).
Proof. unfold moment. cbn [seq lsum]. unfold act_of, ex_x. cbn [app entry]. unfold average. cbn [lsum]. change (INR 1) with 1. lra. Qed.
Lemma ex_holds r (G : covariances) : (forall i j p q, G i j [p] [q] = INR (i + p + 1) * INR (j + q + 1)) ->
  holds_gram false false 2 2 (ord r [3%nat]) (ord r [3%nat]) (fun i j p q => G i j (ord r p) (ord r q)) ex_cov.
Proof.
  intros HG. replace (ord r [3%nat]) with [3%nat] by (destruct r; reflexivity). split; [reflexivity|]. intros i j p q Hi Hj Hp Hq _ _.
  inversion Hp as [|p0 ? p' ? _ Hp']; inversion Hp'; subst. inversion Hq as [|q0 ? q' ? _ Hq']; inversion Hq'; subst.
  replace (ord r [p0]) with [p0] by (destruct r; reflexivity). replace (ord r [q0]) with [q0] by (destruct r; reflexivity). rewrite HG. reflexivity.
Qed.

Example C83_example :
  expectation average /\ plain_conv ex_tr [3%nat] /\ good_std (std_of ex_tr) /\ ok_channels (fun _ => 1%nat)
  /\ geom_fits (transposed CIRCULAR [2; 3]%nat [1; 2]%nat) [2; 2]%nat /\ geom_out (transposed CIRCULAR [2; 3]%nat [1; 2]%nat) [2; 2]%nat = [2; 4]%nat
  /\ geom_at (transposed CIRCULAR [2; 3]%nat [1; 2]%nat) [2; 2]%nat [0; 3]%nat [0; 2]%nat = None
  /\ geom_at (transposed CIRCULAR [2; 3]%nat [1; 2]%nat) [2; 2]%nat [0; 3]%nat [0; 1]%nat = Some [1; 1]%nat
  /\ (let a w := act_of (ex_x w) in
      independent_inputs average (conv_params true 1 1 (conv_geom ex_tr) [3%nat] (Some 1)) (fun w => params_of 1 (ex_zW w) (bias_of ex_tr (ex_zb w))) a a
      /\ (forall w, input_gradient 1 (scaled (a w)) (fun _ => a w))
      /\ covs_of ex_tr_kernel 2 2 [3%nat] (moment average 1 a a) (tangent_moment average 1 1 (fun w _ => a w) (fun w _ => a w)) (moment average 1 a a) (moment average 1 a a))
  /\ exists y, conv_apply_fn ex_tr (mkT [2; 1; 1]%nat (fun i => match i with O :: _ => 1 | _ => 10 end), Some (mkT [1; 1; 1]%nat (fun _ => 5)))
                 (mkT [1; 3; 1]%nat (fun i => INR (nth 1 i 0%nat + 1))) = Ok y
       /\ shape y = [1; 3; 1]%nat
       /\ entry y [0; 0; 0]%nat = 1 / sqrt 3 * (3 * 1 + 1 * 10) + 1 * 5.
Proof.
  split; [exact average_expectation|]. split; [constructor; try reflexivity; cbn; repeat split; repeat constructor|]. split; [cbn; lra|].
  split; [intros m; rewrite Nat.div_1_r; lia|]. split; [cbn; repeat split; repeat constructor|]. split; [reflexivity|]. split; [reflexivity|]. split; [reflexivity|].
  split.
  - intros a. split; [apply (fixed_inputs _ _ (act_of (ex_x (true, true, true))) (act_of (ex_x (true, true, true)))), ex_tr_unit|]. split; [intros w; apply scaled_gradient|].
    assert (M : forall i j p q, moment average 1 a a i j [p] [q] = INR (i + p + 1) * INR (j + q + 1)) by (intros; apply ex_moment).
    constructor; cbn [ex_tr_kernel k_nngp k_ntk k_cov1 k_cov2 k_diagonal_batch].
    + apply (ex_holds true). exact M.
    + left. apply (ex_holds true). intros. unfold tangent_moment. cbn [seq lsum]. rewrite Rplus_0_r. apply M.
    + apply (ex_holds true). exact M.
    + apply (ex_holds true). exact M.
  - eexists. split; [reflexivity|]. split; [reflexivity|].
    cbv -[Rplus Rmult Rdiv Rinv IZR INR Rminus sqrt]. simpl. unfold Rdiv. ring.
Qed.
Print Assumptions C83_example.
