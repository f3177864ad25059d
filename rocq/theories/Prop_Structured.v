(** C55: structured derivatives. *)
From Coq Require Import Reals ZArith List Arith Lia Lra Bool.
From Verif Require Import Base Tensor Reshape Model_Net Model_Empirical Model_Structure Model_Structured Spec_Empirical Spec_Structured
  Proof_Dot Proof_Jacobian Proof_TraceDiag Proof_Vp Proof_Empirical Proof_Structured4 Proof_Structured5.
Import ListNotations.
Local Open Scope R_scope.

Lemma aligned rs fx1 fx2 fx_axis : same_sizes rs fx1 fx2 -> fx_axis = None \/ fx_axis = Some 0%nat \/ fx1 = fx2 ->
  forall a, (a < length rs)%nat -> nth a rs Full <> Full -> nth a (example_first fx_axis fx1) 0%nat = nth a (example_first fx_axis fx2) 0%nat.
Proof.
  intros SS [-> | [-> | ->]] a Ha Hr; [now apply (same_sizes_nth rs)| |reflexivity]. destruct (same_sizes_length _ _ _ SS) as [L1 L2].
  assert (E : forall fx : list nat, length fx = length rs -> example_first (Some 0%nat) fx = fx) by (intros [|x fx] L; [cbn in L; lia|reflexivity]).
  rewrite !E by auto. now apply (same_sizes_nth rs).
Qed.

(** Structured derivatives compute the same kernel as C55_jacobian_contraction: whenever every use
    of a parameter comes with a reduced Jacobian and a structure that describes its Jacobian, and the
    Jacobians and cotangents chain to the derivatives [j1], [j2]. The labels the code gives to
    the axes do not collide for ranks below 5000. Under [vmap] the axis of examples of the output must
    come first, or the two outputs must have the same shape. *)
Theorem C55_structured_partial rs fx1 fx2 tr di fx_axis ps us1 us2 j1 j2 :
  same_sizes rs fx1 fx2 -> denotes tr Traced rs -> denotes di Diag rs -> (Z.of_nat (length rs) < 5000)%Z ->
  fx_axis = None \/ fx_axis = Some 0%nat \/ fx1 = fx2 ->
  derivatives fx_axis fx1 ps us1 j1 -> derivatives fx_axis fx2 ps us2 j2 ->
  is_kernel rs fx1 fx2 (jac_dot (map fst ps) j1 j2) (structured_sum_and_contract tr di fx_axis fx1 fx2 us1 us2).
Proof. intros SS Ht Hd Lr Ha. apply structured_kernel; auto. now apply aligned. Qed.
Print Assumptions C55_structured_partial.

Lemma derivatives_jacobian fx_axis fx : forall ps us js, derivatives fx_axis fx ps us js -> jacobian_of fx (map fst ps) js.
Proof.
  induction ps as [|[ws [tw dw]] ps IH]; intros [|u us] [|j js] H; cbn in H; try contradiction; [constructor|]. destruct H as (_ & (ysJs & _ & [S _]) & H).
  cbn [map fst]. constructor; [exact S|]. now apply (IH us).
Qed.

(** Hence the three implementations return equal arrays. *)
Theorem C55_all_agree_partial rs fx1 fx2 tr di fx_axis ps us1 us2 j1 j2 :
  same_sizes rs fx1 fx2 -> denotes tr Traced rs -> denotes di Diag rs -> (Z.of_nat (length rs) < 5000)%Z ->
  fx_axis = None \/ fx_axis = Some 0%nat \/ fx1 = fx2 -> ps <> [] ->
  derivatives fx_axis fx1 ps us1 j1 -> derivatives fx_axis fx2 ps us2 j2 ->
  exists t u v, sum_and_contract tr di fx1 j1 j2 = Ok t /\ ntk_vector_products tr di fx1 fx2 j1 j2 = Ok u /\
    structured_sum_and_contract tr di fx_axis fx1 fx2 us1 us2 = Ok v /\ teq t u /\ teq t v.
Proof.
  intros SS Ht Hd Lr Ha Hp H1 H2. pose proof (derivatives_jacobian _ _ _ _ _ H1) as J1. pose proof (derivatives_jacobian _ _ _ _ _ H2) as J2.
  assert (Hm : map fst ps <> []) by (destruct ps; [congruence|discriminate]).
  destruct (implementations_agree rs fx1 fx2 tr di (map fst ps) j1 j2 SS Ht Hd Hm J1 J2) as (t & u & E1 & E2 & E).
  destruct (is_kernel_teq rs fx1 fx2 (jac_dot (map fst ps) j1 j2) (sum_and_contract tr di fx1 j1 j2) (structured_sum_and_contract tr di fx_axis fx1 fx2 us1 us2)) as (t' & v & E1' & E3 & E').
  - exact SS. - now apply jacobian_contraction. - now apply C55_structured_partial.
  - rewrite E1 in E1'. injection E1' as <-. exists t, u, v. auto.
Qed.
Print Assumptions C55_all_agree_partial.

(** Two uses of a matrix [w] of shape (2, 3): y = w x with x = (1, 2, 3), traced along the rows. *)
Definition ex_x (j : nat) : R := INR (S j).
Definition ex_J (o y w : list nat) : R := if (nth 0 y 0 =? nth 0 w 0)%nat then ex_x (nth 1 w 0%nat) else 0.
Definition ex_s : structure := mkStructure [0%nat] [0%nat] [0%nat] [] [] [] [] [] 0.
Definition ex_eye : tensor R := mkT [2; 2]%nat (fun i => if (nth 0 i 0 =? nth 1 i 0)%nat then 1 else 0).
Definition ex_use : use := mkUse ex_eye (Some (mkT [1; 1; 3]%nat (fun i => ex_x (nth 2 i 0%nat)))) ex_s.
Definition ex_zero : use := mkUse ex_eye None ex_s.
Definition ex_j : tensor R := mkT [2; 2; 3]%nat (fun i => if (nth 0 i 0 =? nth 1 i 0)%nat then ex_x (nth 2 i 0%nat) else 0).

Example C55_structured_example :
  derivatives None [2%nat] [([2; 3], ([0], []))]%nat [[ex_use; ex_zero]] [ex_j] /\
  kernel_at [Full] [2%nat] (jac_dot [[2; 3]]%nat [ex_j] [ex_j]) [1%nat] [1%nat] = 14 /\
  exists t, structured_sum_and_contract [] [] None [2%nat] [2%nat] [[ex_use; ex_zero]] [[ex_use]] = Ok t /\ shape t = [2; 2]%nat /\ entry t [1; 1]%nat = 14.
Proof.
  split; [|split].
  - cbn [derivatives]. split; [cbn; lia|]. split; [|exact I]. exists [([2%nat], ex_J); ([2%nat], fun _ _ _ => 0)]. split.
    + constructor; [|constructor; [|constructor]].
      * split; [reflexivity|]. split; [cbn; lia|]. cbn [dy_dw ex_use fst snd]. split; [|split; [reflexivity|]].
        -- unfold fits. cbn. repeat split; repeat constructor; try (intros []); lia.
        -- intros o _. split; [reflexivity|]. intros y w Hy Hw. inversion Hy as [|a ? y' ? Ha Hy']; subst. inversion Hy'; subst.
           inversion Hw as [|b ? w' ? Hb Hw']; subst. inversion Hw' as [|c ? w'' ? Hc Hw'']; subst. inversion Hw''; subst.
           unfold ex_J, same_at. cbn. destruct (a =? b)%nat; reflexivity.
      * split; [reflexivity|]. split; [cbn; lia|]. cbn. intros o y w. reflexivity.
    + split; [reflexivity|]. intros o w Ho Hw. inversion Ho as [|a ? o' ? Ha Ho']; subst. inversion Ho'; subst.
      inversion Hw as [|b ? w' ? Hb Hw']; subst. inversion Hw' as [|c ? w'' ? Hc Hw'']; subst. inversion Hw''; subst.
      destruct a as [|[|a]]; [| |lia]; (destruct b as [|[|b]]; [| |lia]); cbv -[Rplus Rmult ex_x IZR]; ring.
  - cbv -[Rplus Rmult Rdiv Rinv INR IZR]. simpl. lra.
  - eexists. split; [reflexivity|]. split; [reflexivity|]. cbv -[Rplus Rmult Rdiv Rinv INR IZR]. simpl. lra.
Qed.

(** Refuted for other axes of examples: [_get_dims] compares the sizes of the outputs before the
    axis of examples is moved to its place. Output of shape (1, batch), the axis of examples last,
    the first axis traced, batches of 1 and 2 examples. *)
Definition ex_b (n : nat) : use := mkUse (mkT [n; 1; 1]%nat (fun _ => 1)) (Some (mkT [n; 1; 1]%nat (fun _ => 1))) empty_structure.
Theorem C55_vmap_refuted : exists rs fx1 fx2 tr di a ps us1 us2 j1 j2,
  same_sizes rs fx1 fx2 /\ denotes tr Traced rs /\ denotes di Diag rs /\ (a < length rs)%nat /\
  derivatives (Some a) fx1 ps us1 j1 /\ derivatives (Some a) fx2 ps us2 j2 /\
  structured_sum_and_contract tr di (Some a) fx1 fx2 us1 us2 = Raise AssertionError /\
  exists t, sum_and_contract tr di fx1 j1 j2 = Ok t.
Proof.
  assert (D : forall n, derivatives (Some 1%nat) [1; n]%nat [([1], ([], []))]%nat [[ex_b n]] [mkT [1; n; 1]%nat (fun _ => 1)]).
  { intros n. cbn [derivatives]. split; [cbn; lia|]. split; [|exact I]. exists [([1%nat], fun _ _ _ => 1)]. split.
    - constructor; [|constructor]. split; [reflexivity|]. split; [cbn; lia|]. cbn [dy_dw ex_b fst snd]. split; [|split; [cbn; split; [lia|reflexivity]|]].
      + unfold fits. cbn. repeat split; repeat constructor.
      + intros o _. split; [reflexivity|]. intros y w _ _. reflexivity.
    - split; [reflexivity|]. intros o w _ _. cbv -[Rplus Rmult IZR]. ring. }
  exists [Traced; Full], [1; 1]%nat, [1; 2]%nat, [0]%Z, [], 1%nat, [([1], ([], []))]%nat, [[ex_b 1]], [[ex_b 2]], [mkT [1; 1; 1]%nat (fun _ => 1)], [mkT [1; 2; 1]%nat (fun _ => 1)].
  split; [cbn; auto|]. split; [exists [0%nat]; split; [reflexivity|]; split; [repeat constructor; intros []|]; cbn; tauto|].
  split; [exists []; split; [reflexivity|]; split; [constructor|]; cbn; tauto|]. split; [cbn; lia|]. split; [apply D|]. split; [apply D|]. split; [reflexivity|].
  eexists. vm_compute. reflexivity.
Qed.
Print Assumptions C55_vmap_refuted.
