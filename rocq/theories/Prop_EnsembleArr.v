(** C87: ensemble predictions on arrays of any rank are the means and covariances of the predictions of randomly
    initialised networks, and tend to inference without a time. *)
From Coq Require Import Reals ZArith List Arith Lia Lra Bool Sorted.
From Coquelicot Require Import Coquelicot.
From Verif Require Import Base Tensor Reshape Model_Net Model_Predict Model_Empirical Model_PredictArr Model_EnsembleArr Spec_Inputs Spec_Predict Spec_PredictArr Spec_EnsembleArr
  Proof_Linalg Proof_Predict Proof_PredictArr4 Proof_EnsembleArr3 Proof_EnsembleArr4 Example_Predict.
Import ListNotations.
Local Open Scope R_scope.

(** Training outputs. In mode 'nngp' the covariance is right without regularisation. *)
Theorem C87_training eigh cho_solve lr reg ab tr T y K k_dd g t {Omega : Type} (E : (Omega -> R) -> R) f N_dd k_td :
  let s := untraced T (shape y) in let n := size s in let A := regularised n (flat s K) reg ab in
  training_arrays tr T y K -> positive_definite n A ->
  (forall B, same_matrix n B A -> eigendecomposition n B (evals (eigh n B)) (evecs (eigh n B))) ->
  gives k_dd g K -> same_shapes k_dd K -> g <> Ntkgp ->
  expectation E -> random_train E T (shape y) f N_dd ->
  exists F M,
    (forall w, arrays_mse eigh cho_solve reg ab K y lr tr (Some t) (Some (f w)) None k_td = Ok (ATrain (F w)))
    /\ arrays_ensemble eigh cho_solve reg ab y lr tr (Some t) k_dd None None g = Ok (Some M, None)
    /\ mean_of E (shape t) (shape y) F M
    /\ (gives k_dd Nngp N_dd -> shape N_dd = interleave s s -> (g = Nngp -> reg = 0) ->
        exists C, arrays_ensemble eigh cho_solve reg ab y lr tr (Some t) k_dd None (Some None) g = Ok (Some M, Some (Some C))
          /\ covariance_of E T (shape t) (shape y) F M C).
Proof.
  intros s n A HA Hp HE GK GS Hg HX HF. exact (train_statistics eigh cho_solve lr reg ab tr T y K HA HE Hp k_dd g GK GS Hg t E HX f N_dd HF k_td).
Qed.
Print Assumptions C87_training.

(** Test outputs [h], of shape [zs_], correlated with the training outputs [f]. *)
Theorem C87_test eigh cho_solve lr reg ab tr T y K k_dd g t {Omega : Type} (E : (Omega -> R) -> R) f N_dd zs_ ktd k_td h N_td N_tt :
  let s := untraced T (shape y) in let s' := untraced T zs_ in let n := size s in let A := regularised n (flat s K) reg ab in
  training_arrays tr T y K -> test_arrays T (shape y) zs_ ktd -> positive_definite n A ->
  (forall B, same_matrix n B A -> eigendecomposition n B (evals (eigh n B)) (evecs (eigh n B))) ->
  gives k_dd g K -> gives k_td g ktd -> same_shapes k_td ktd -> g <> Ntkgp ->
  expectation E -> random_train E T (shape y) f N_dd -> random_train E T zs_ h N_tt -> random_cross E T (shape y) zs_ f h N_td ->
  exists F G M,
    (forall w, arrays_mse eigh cho_solve reg ab K y lr tr (Some t) (Some (f w)) (Some (h w)) (Some ktd) = Ok (ABoth (F w) (Some (G w))))
    /\ arrays_ensemble eigh cho_solve reg ab y lr tr (Some t) k_dd (Some k_td) None g = Ok (Some M, None)
    /\ mean_of E (shape t) zs_ G M
    /\ (gives k_dd Nngp N_dd -> shape N_dd = interleave s s -> gives k_td Nngp N_td -> shape N_td = interleave s' s ->
        shape N_tt = interleave s' s' -> (g = Nngp -> reg = 0) ->
        exists C, arrays_ensemble eigh cho_solve reg ab y lr tr (Some t) k_dd (Some k_td) (Some (Some N_tt)) g = Ok (Some M, Some (Some C))
          /\ covariance_of E T (shape t) zs_ G M C).
Proof.
  intros s s' n A HA HZ Hp HE GK GT GTS Hg HX HF HH HC.
  exact (test_statistics eigh cho_solve lr reg ab tr T y K HA HE Hp k_dd g GK Hg t E HX f N_dd HF zs_ ktd k_td h N_td N_tt HZ GT GTS HH HC).
Qed.
Print Assumptions C87_test.

(** As time grows, training predictions tend to the targets, without covariance, which is the call without a time. *)
Theorem C87_training_limit eigh cho_solve lr reg ab tr T y g N_dd T_dd :
  let K := trained g N_dd T_dd in
  let s := untraced T (shape y) in let n := size s in let A := regularised n (flat s K) reg ab in
  let call t := arrays_ensemble eigh cho_solve reg ab y lr tr t (ANamed (Some N_dd) (Some T_dd)) None (Some None) g in
  training_arrays tr T y K -> shape N_dd = interleave s s -> positive_definite n A ->
  (forall B, same_matrix n B A -> eigendecomposition n B (evals (eigh n B)) (evecs (eigh n B))) ->
  0 < lr -> g <> Ntkgp ->
  converges (shape y) s call
  /\ exists C0, call None = Ok (Some y, Some (Some C0)) /\ shape C0 = shape K /\ forall i, entry C0 i = 0.
Proof. intros K s n A call HA SN Hp HE Hl Hg. exact (train_limit eigh cho_solve lr reg ab tr T y K HA HE Hp Hl g N_dd T_dd Hg eq_refl SN). Qed.
Print Assumptions C87_training_limit.

(** Test predictions tend to the call without a time: posterior inference, see C84. *)
Theorem C87_test_limit eigh cho_solve lr reg ab tr T y g N_dd T_dd zs_ N_td T_td N_tt :
  let K := trained g N_dd T_dd in let ktd := trained g N_td T_td in
  let s := untraced T (shape y) in let s' := untraced T zs_ in let n := size s in let A := regularised n (flat s K) reg ab in
  training_arrays tr T y K -> test_arrays T (shape y) zs_ ktd -> n <> 0%nat ->
  shape N_dd = interleave s s -> shape N_td = interleave s' s -> shape N_tt = interleave s' s' -> positive_definite n A ->
  (forall B, same_matrix n B A -> eigendecomposition n B (evals (eigh n B)) (evecs (eigh n B))) ->
  (forall B, same_matrix n B A -> solves n B (cho_solve n B)) ->
  0 < lr -> g <> Ntkgp ->
  converges zs_ s' (fun t => arrays_ensemble eigh cho_solve reg ab y lr tr t (ANamed (Some N_dd) (Some T_dd))
    (Some (ANamed (Some N_td) (Some T_td))) (Some (Some N_tt)) g).
Proof.
  intros K ktd s s' n A HA HZ Hn SN STN STT Hp HE HS Hl Hg.
  exact (test_limit eigh cho_solve lr reg ab tr T y K HA HE Hp Hl g N_dd T_dd Hg eq_refl SN HS Hn zs_ ktd N_td T_td N_tt HZ eq_refl STN STT).
Qed.
Print Assumptions C87_test_limit.

(** Two outputs, on axis 0, of two training inputs and one test input, from independent signs for each output. *)
Definition y_e : tensor R := mkT [2; 2]%nat (fun i => INR (nth 0 i 0%nat) - y2 (nth 1 i 0%nat) 0).
Definition K_e : tensor R := mkT [2; 2]%nat (fun i => K2 (nth 0 i 0%nat) (nth 1 i 0%nat)).
Definition K_td_e : tensor R := mkT [1; 2]%nat (fun i => K2_td (nth 0 i 0%nat) (nth 1 i 0%nat)).
Definition K_tt_e : tensor R := mkT [1; 1]%nat (fun _ => 2).
Definition average_e (X : signs * signs -> R) : R := average (fun a => average (fun b => X (a, b))).
Definition f_e (w : signs * signs) : tensor R := mkT [2; 2]%nat (fun i => f2 (match nth 0 i 0%nat with O => fst w | _ => snd w end) (nth 1 i 0%nat) 0).
Definition g_e (w : signs * signs) : tensor R := mkT [2; 1]%nat (fun i => g2 (match nth 0 i 0%nat with O => fst w | _ => snd w end) (nth 1 i 0%nat) 0).

Lemma average_e_expectation : expectation average_e.
Proof.
  destruct average_expectation as [X P S O]. split; unfold average_e.
  - intros U V H. apply X. intros a. apply X. intros b. apply H.
  - intros U V. rewrite <- P. apply X. intros a. apply P.
  - intros r U. rewrite <- S. apply X. intros a. apply S.
  - transitivity (average (fun _ => 1)); [apply X; intros a; exact O|exact O].
Qed.
Lemma in_two_one (P : list nat -> Prop) : P [0; 0]%nat -> P [1; 0]%nat -> forall i, in_range [2; 1]%nat i -> P i.
Proof.
  intros H0 H1 [|a [|b [|? ?]]] Hi; try (apply Forall2_length in Hi; discriminate). inversion Hi as [|? ? ? ? Ha Hl]; subst. inversion Hl as [|? ? ? ? Hb _]; subst.
  assert (b = 0%nat) as -> by lia. two Ha; auto.
Qed.
Lemma in_two_two (P : list nat -> Prop) : P [0; 0]%nat -> P [0; 1]%nat -> P [1; 0]%nat -> P [1; 1]%nat -> forall i, in_range [2; 2]%nat i -> P i.
Proof.
  intros H0 H1 H2 H3 [|a [|b [|? ?]]] Hi; try (apply Forall2_length in Hi; discriminate). inversion Hi as [|? ? ? ? Ha Hl]; subst. inversion Hl as [|? ? ? ? Hb _]; subst.
  two Ha; two Hb; auto.
Qed.

Example C87_example :
  let s := untraced [0%nat] (shape y_e) in let n := size s in let A := regularised n (flat s K_e) 0 true in
  let k_dd := ANamed (Some K_e) (Some K_e) in let k_td := ANamed (Some K_td_e) (Some K_td_e) in
  training_arrays [(-2)%Z] [0%nat] y_e K_e /\ test_arrays [0%nat] (shape y_e) [2; 1]%nat K_td_e
  /\ n <> 0%nat /\ positive_definite n A
  /\ (forall B, same_matrix n B A -> eigendecomposition n B (evals (eigh2 n B)) (evecs (eigh2 n B)))
  /\ (forall B, same_matrix n B A -> solves n B (solve2 n B))
  /\ expectation average_e /\ random_train average_e [0%nat] (shape y_e) f_e K_e /\ random_train average_e [0%nat] [2; 1]%nat g_e K_tt_e
  /\ random_cross average_e [0%nat] (shape y_e) [2; 1]%nat f_e g_e K_td_e
  /\ gives k_dd Ntk K_e /\ same_shapes k_dd K_e /\ gives k_td Ntk K_td_e /\ same_shapes k_td K_td_e /\ gives k_dd Nngp K_e /\ gives k_td Nngp K_td_e
  /\ shape K_e = interleave s s /\ shape K_td_e = interleave (untraced [0%nat] [2; 1]%nat) s
  /\ shape K_tt_e = interleave (untraced [0%nat] [2; 1]%nat) (untraced [0%nat] [2; 1]%nat).
Proof.
  intros s n A k_dd k_td.
  assert (HA : same_matrix 2 A K2).
  { intros j k Hj Hk. two Hj; two Hk; unfold A, regularised, flat; cbn; lra. }
  assert (D : positive_definite 2 A) by exact (same_definite 2 A K2 HA K2_definite).
  split; [split|split; [split|]]; try reflexivity.
  - split; [repeat constructor|]. split.
    + intros z [<-|[]]. exists 0%nat. split; [cbn; lia|right; cbn; lia].
    + intros a. split; [intros [<-|[]]; exists (-2)%Z; split; [now left|]; split; [cbn; lia|right; cbn; lia]|].
      intros (z & [<-|[]] & Ha & [Hz|Hz]); cbn in *; [lia|left; lia].
  - cbn. lia.
  - split; [cbn; lia|]. split; [exact D|]. split; [|split; [|split; [exact average_e_expectation|split; [|split; [|split; [|repeat split]]]]]].
    + intros B HB. assert (E : same_matrix 2 B K2) by (intros j k Hj Hk; rewrite <- HA by auto; now apply HB).
      destruct K2_decomposed as (U & V & W). split; [exact U|]. split; [exact V|]. intros i j Hi Hj. transitivity (Spec_Predict.sum 2 (fun k => K2 j k * V2 k i)); [|now apply W].
      apply msum_ext. intros k Hk. f_equal. now apply E.
    + intros B HB b j Hj. rewrite <- (K2_solved b j Hj). apply msum_ext. intros k Hk. f_equal. rewrite <- HA by auto. now apply HB.
    + split; [reflexivity| |].
      * apply in_two_two; unfold average_e, average; cbn; lra.
      * intros i j Hi Hj. revert i Hi. apply in_two_two; revert j Hj; apply in_two_two; unfold average_e, average, block; cbn; lra.
    + split; [reflexivity| |].
      * apply in_two_one; unfold average_e, average; cbn; lra.
      * intros i j Hi Hj. revert i Hi. apply in_two_one; revert j Hj; apply in_two_one; unfold average_e, average, block; cbn; lra.
    + intros i j Hi Hj. revert i Hi. apply in_two_one; revert j Hj; apply in_two_two; unfold average_e, average, block; cbn; lra.
Qed.
