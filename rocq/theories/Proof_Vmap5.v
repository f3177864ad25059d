(** Vectorizing does not change the kernel; keywords given as pairs. *)
From Coq Require Import Reals ZArith List Arith Bool Lia Lra.
From Coquelicot Require Import Coquelicot.
From Verif Require Import Base Tensor Reshape Model_Net Proof_Net Model_Predict Model_Empirical Proof_Tsum Model_Structure Model_Lax
  Spec_Empirical Proof_Empirical Model_Vmap Spec_Vmap Proof_Vmap Proof_Vmap2 Proof_Vmap3 Proof_Vmap4.
Import ListNotations.
Local Open Scope R_scope.

Lemma are_kernels_teq rs fx1 fx2 G r1 r2 : (forall m, (m < length fx1)%nat -> same_sizes (rs m) (shape (nth m fx1 none)) (shape (nth m fx2 none))) ->
  are_kernels rs fx1 fx2 G r1 -> are_kernels rs fx1 fx2 G r2 -> exists ts us, r1 = Ok ts /\ r2 = Ok us /\ Forall2 teq ts us.
Proof.
  intros Hs (ts & -> & L1 & H1) (us & -> & L2 & H2). exists ts, us. split; [reflexivity|]. split; [reflexivity|].
  apply (nth_Forall2 _ none none); [lia|]. intros m Hm. rewrite L1 in Hm.
  destruct (is_kernel_teq _ _ _ _ _ _ (Hs m Hm) (H1 m Hm) (H2 m Hm)) as (t & u & E1 & E2 & T). now injection E1 as ->; injection E2 as ->.
Qed.

Lemma in_axes_none {A} (zs : list (option Z)) axes (xs : list (tensor A)) : in_axes zs axes xs -> in_axes (map (fun _ => None) zs) (map (fun _ => None) axes) xs.
Proof.
  intros [H L]. split; [|now rewrite !map_length]. revert axes L xs H. induction zs as [|z zs IH]; intros [|a axes] L xs H; cbn in L; try lia; inversion H as [|za x l xs' Hx Hr]; subst; cbn [map combine]; constructor; auto.
  cbn. auto.
Qed.
Lemma vectorizes_length {A} f params axes outs (xs : list (tensor A)) : vectorizes f params axes outs xs -> length axes = length xs.
Proof. destruct outs; cbn; [intros (_ & n & H & _)|intros H]; now apply Forall2_length in H. Qed.
Lemma vectorizes_none {A} f params axes outs (xs : list (tensor A)) : vectorizes f params axes outs xs -> vectorizes f params (map (fun _ => None) axes) None xs.
Proof.
  intros H. apply vectorizes_length in H. cbn. revert xs H. induction axes as [|a axes IH]; intros [|x xs] L; cbn in L; try lia; constructor; auto.
Qed.

Section V.
  Context {A : Type}.
  Variable f : list (tensor R) -> list (tensor A) -> list (tensor R).
  Variable params : list (tensor R).
  Variables (zx zk : list (option Z)) (zf : option (list Z)) (xa ka : list (option nat)) (outs : option (list nat)).
  Variables (x1 kw1 kw2 : list (tensor A)) (x2 : option (list (tensor A))).
  Variables (rs : nat -> list role) (tr di : list Z).

  Lemma unvectorized :
    let fx1 := f params (x1 ++ kw1) in
    let xs2 := match x2 with None => x1 ++ kw1 | Some x2 => x2 ++ kw2 end in
    let fx2 := f params xs2 in
    function_of_arrays f params -> in_axes zx xa x1 -> in_axes zk ka kw1 -> out_axes zf outs fx1 ->
    vectorizes f params (xa ++ ka) outs (x1 ++ kw1) -> vectorizes f params (xa ++ ka) outs xs2 ->
    length fx1 = length fx2 -> params <> [] -> (x2 = None -> outs <> None -> kw2 = kw1) ->
    (forall m, (m < length fx1)%nat -> same_sizes (rs m) (shape (nth m fx1 none)) (shape (nth m fx2 none)) /\ denotes tr Traced (rs m) /\ denotes di Diag (rs m)) ->
    exists ts us vs ws,
      jacobian_contraction f params tr di zx zk zf x1 x2 kw1 kw2 = Ok ts /\
      jacobian_contraction f params tr di (map (fun _ => None) zx) (map (fun _ => None) zk) None x1 x2 kw1 kw2 = Ok us /\
      vector_products f params tr di zx zk zf x1 x2 kw1 kw2 = Ok vs /\
      vector_products f params tr di (map (fun _ => None) zx) (map (fun _ => None) zk) None x1 x2 kw1 kw2 = Ok ws /\
      Forall2 teq ts us /\ Forall2 teq ts vs /\ Forall2 teq ts ws.
  Proof.
    intros fx1 xs2 fx2 Hf Hzx Hzk Hzf V1 V2 HL Hne Hkw Hrs.
    pose proof (jacobian_contraction_kernels f params Hf _ _ _ _ _ _ _ _ _ _ rs tr di Hzx Hzk Hzf V1 V2 HL Hrs Hne) as K1.
    pose proof (vector_products_kernels f params Hf _ _ _ _ _ _ _ _ _ _ rs tr di Hzx Hzk Hzf V1 V2 HL Hrs Hkw) as K2.
    apply in_axes_none in Hzx. apply in_axes_none in Hzk. apply vectorizes_none in V1. apply vectorizes_none in V2. rewrite map_app in V1, V2.
    pose proof (jacobian_contraction_kernels f params Hf _ _ None _ _ None _ _ _ _ rs tr di Hzx Hzk I V1 V2 HL Hrs Hne) as K3.
    pose proof (vector_products_kernels f params Hf _ _ None _ _ None _ _ _ _ rs tr di Hzx Hzk I V1 V2 HL Hrs (fun _ H => match H eq_refl with end)) as K4.
    assert (Hs : forall m, (m < length fx1)%nat -> same_sizes (rs m) (shape (nth m fx1 none)) (shape (nth m fx2 none))) by (intros m Hm; apply (Hrs m Hm)).
    destruct (are_kernels_teq _ _ _ _ _ _ Hs K1 K3) as (ts & us & E1 & E3 & T3).
    destruct (are_kernels_teq _ _ _ _ _ _ Hs K1 K2) as (ts' & vs & E1' & E2 & T2). rewrite E1 in E1'. injection E1' as <-.
    destruct (are_kernels_teq _ _ _ _ _ _ Hs K1 K4) as (ts' & ws & E1' & E4 & T4). rewrite E1 in E1'. injection E1' as <-.
    exists ts, us, vs, ws. auto 10.
  Qed.

  Lemma paired_keywords : let fx1 := f params (x1 ++ kw1) in let fx2 := f params (x1 ++ kw2) in
    function_of_arrays f params -> in_axes zx xa x1 -> in_axes zk ka kw1 -> out_axes zf outs fx1 -> outs <> None ->
    vectorizes f params (xa ++ ka) outs (x1 ++ kw1) -> vectorizes f params (xa ++ ka) outs (x1 ++ kw2) ->
    length fx1 = length fx2 ->
    (forall m, (m < length fx1)%nat -> same_sizes (rs m) (shape (nth m fx1 none)) (shape (nth m fx2 none)) /\ denotes tr Traced (rs m) /\ denotes di Diag (rs m)) ->
    are_kernels rs fx1 fx2 (tangent_kernel f params (x1 ++ kw1) (x1 ++ kw2)) (vector_products f params tr di zx zk zf x1 None kw1 kw2).
  Proof.
    intros fx1 fx2 Hf Hzx Hzk Hzf Ho V1 V2 HL Hrs. destruct outs as [os|]; [|easy].
    pose proof (vector_products_kernels f params Hf _ _ _ _ _ _ _ _ kw2 (Some x1) rs tr di Hzx Hzk Hzf V1 V2 HL Hrs) as K.
    replace (vector_products f params tr di zx zk zf x1 None kw1 kw2) with (vector_products f params tr di zx zk zf x1 (Some x1) kw1 kw2); [apply K; easy|].
    unfold vector_products. rewrite (get_axes_ok f params _ _ _ _ _ _ _ _ Hzx Hzk Hzf). cbn [bind]. destruct V1 as [Hm _]. now rewrite (mapped_true _ Hm).
  Qed.
End V.

(** * An example: the product of a parameter, an input and a keyword, for each example. *)
Definition ex_f (p xs : list (tensor R)) : list (tensor R) :=
  match p, xs with
  | [w], [x; k] => match shape x, shape k with
                   | [n], [n'] => if (n =? n')%nat then [mkT [n] (fun i => entry w [] * entry x i * entry k i)] else []
                   | _, _ => []
                   end
  | _, _ => []
  end.
Definition ex_params : list (tensor R) := [mkT [] (fun _ => 3)].
Definition ex_vec (l : list R) : tensor R := mkT [length l] (fun i => nth (nth 0 i 0%nat) l 0).

Lemma ex_arrays : function_of_arrays ex_f ex_params.
Proof.
  split.
  - intros p p' xs xs' Hp Hpp Hxx. inversion Hp as [|? w ? pr Hw Hr]; subst. inversion Hr; subst. inversion Hpp as [|? w' ? ? [_ Ew] Hr']; subst. inversion Hr'; subst.
    destruct Hxx as [|x x' xs xs' [Sx Ex] Hxx]; [constructor|]. destruct Hxx as [|k k' xs xs' [Sk Ek] Hxx]; [constructor|]. destruct Hxx; [|constructor].
    cbn [ex_f]. rewrite <- Sx, <- Sk. destruct (shape x) as [|n [|? ?]] eqn:E; try constructor. destruct (shape k) as [|n' [|? ?]] eqn:E'; try constructor.
    destruct (Nat.eqb_spec n n') as [<-|]; constructor; [|constructor]. split; [reflexivity|]. cbn [shape entry]. intros i Hi.
    rewrite Ex, Ek by exact Hi. rewrite Ew; [reflexivity|]. cbn in Hw. rewrite <- Hw. constructor.
  - intros p xs Hp. inversion Hp as [|? w ? pr Hw Hr]; subst. inversion Hr; subst. cbn [ex_f ex_params]. destruct xs as [|x [|k [|? ?]]]; try reflexivity.
    destruct (shape x) as [|n [|? ?]]; try reflexivity. destruct (shape k) as [|n' [|? ?]]; try reflexivity. destruct (n =? n')%nat; reflexivity.
Qed.

Lemma ex_acts x k n : shape x = [n] -> shape k = [n] -> vectorizes ex_f ex_params [Some 0%nat; Some 0%nat] (Some [0%nat]) [x; k].
Proof.
  intros Sx Sk. split; [exists 0%nat; now left|]. exists n. split.
  - repeat constructor; rewrite ?Sx, ?Sk; reflexivity.
  - intros p Hp. inversion Hp as [|? w ? pr Hw Hr]; subst. inversion Hr; subst.
    cbn [ex_f example combine map fst snd shape]. rewrite Sx, Sk. cbn [set_at]. rewrite Nat.eqb_refl. cbn [Nat.eqb length nth]. split; [reflexivity|]. split; [reflexivity|].
    intros m a Ha. destruct m; [|destruct m; discriminate]. injection Ha as <-. cbn [shape entry]. split; [reflexivity|]. split; [reflexivity|].
    intros i Hi. inversion Hi as [|b ? i' ? Hb Hi']; subst. inversion Hi'; subst. reflexivity.
Qed.

Lemma ex_slope x k n i q : shape x = [n] -> shape k = [n] -> q = [] -> slope ex_f ex_params [x; k] 0 i 0 q = entry x i * entry k i.
Proof.
  intros Sx Sk ->. unfold slope. apply is_derive_unique. cbn [ex_f nudge ex_params nth set_at]. rewrite Sx, Sk, Nat.eqb_refl. cbn [nth entry shape list_eq_dec list_rec list_rect].
  auto_derive; [exact I|]. ring.
Qed.

Lemma ex_kernel x k x' k' n n' i j : shape x = [n] -> shape k = [n] -> shape x' = [n'] -> shape k' = [n'] ->
  tangent_kernel ex_f ex_params [x; k] [x'; k'] 0 i j = entry x i * entry k i * (entry x' j * entry k' j).
Proof.
  intros. unfold tangent_kernel. cbn [ex_params length seq lsum nth shape tsum]. fold ex_params. rewrite (ex_slope x k n), (ex_slope x' k' n') by auto. ring.
Qed.

Lemma ex_out x k n : shape x = [n] -> shape k = [n] -> exists y, ex_f ex_params [x; k] = [y] /\ shape y = [n].
Proof. intros Sx Sk. cbn [ex_f ex_params]. rewrite Sx, Sk, Nat.eqb_refl. eexists. split; reflexivity. Qed.

Lemma paired_differ : exists (f : list (tensor R) -> list (tensor R) -> list (tensor R)) params x1 a b t u,
  function_of_arrays f params /\
  vectorizes f params [Some 0%nat; Some 0%nat] (Some [0%nat]) [x1; a] /\ vectorizes f params [Some 0%nat; Some 0%nat] (Some [0%nat]) [x1; b] /\
  jacobian_contraction f params [] [] [Some 0%Z] [Some 0%Z] (Some [0%Z]) [x1] None [a] [b] = Ok [t] /\
  vector_products f params [] [] [Some 0%Z] [Some 0%Z] (Some [0%Z]) [x1] None [a] [b] = Ok [u] /\ shape t = [1; 1]%nat /\ shape u = [1; 1]%nat /\
  entry t [0; 0]%nat = 1 /\ entry u [0; 0]%nat = 2.
Proof.
  set (x1 := ex_vec [1]). set (a := ex_vec [1]). set (b := ex_vec [2]).
  pose proof (ex_acts x1 a 1 eq_refl eq_refl) as Va. pose proof (ex_acts x1 b 1 eq_refl eq_refl) as Vb.
  assert (Zi : forall x : tensor R, shape x = [1%nat] -> in_axes [Some 0%Z] [Some 0%nat] [x]).
  { intros x Hx. split; [|reflexivity]. constructor; [|constructor]. cbn. rewrite Hx. split; [cbn; lia|now left]. }
  assert (Zo : out_axes (Some [0%Z]) (Some [0%nat]) (ex_f ex_params [x1; a])).
  { destruct (ex_out x1 a 1 eq_refl eq_refl) as (y & -> & Sy). split; [|reflexivity]. constructor; [|constructor]. cbn. rewrite Sy. split; [cbn; lia|now left]. }
  assert (Hrs : forall k, shape k = [1%nat] -> forall m, (m < length (ex_f ex_params [x1; a]))%nat ->
    same_sizes [Full] (shape (nth m (ex_f ex_params [x1; a]) none)) (shape (nth m (ex_f ex_params [x1; k]) none)) /\ denotes [] Traced [Full] /\ denotes [] Diag [Full]).
  { intros k Hk m Hm. destruct (ex_out x1 a 1 eq_refl eq_refl) as (y & E & Sy). destruct (ex_out x1 k 1 eq_refl Hk) as (y' & E' & Sy'). rewrite E in *. rewrite E'. cbn in Hm. replace m with 0%nat by lia. cbn. rewrite Sy, Sy'. cbn.
    split; [auto|]. split; (exists []; split; [reflexivity|]; split; [constructor|]; cbn; tauto). }
  assert (HLk : forall k, shape k = [1%nat] -> length (ex_f ex_params [x1; a]) = length (ex_f ex_params [x1; k])).
  { intros k Hk. destruct (ex_out x1 a 1 eq_refl eq_refl) as (y & -> & _). destruct (ex_out x1 k 1 eq_refl Hk) as (y' & -> & _). reflexivity. }
  assert (Hne : ex_params <> []) by easy.
  pose proof (jacobian_contraction_kernels ex_f ex_params ex_arrays [Some 0%Z] [Some 0%Z] (Some [0%Z]) [Some 0%nat] [Some 0%nat] (Some [0%nat]) [x1] [a] [b] None (fun _ => [Full]) [] []
    (Zi x1 eq_refl) (Zi a eq_refl) Zo Va Va eq_refl (Hrs a eq_refl) Hne) as (ts & E1 & L1 & K1).
  pose proof (paired_keywords ex_f ex_params [Some 0%Z] [Some 0%Z] (Some [0%Z]) [Some 0%nat] [Some 0%nat] (Some [0%nat]) [x1] [a] [b] (fun _ => [Full]) [] []
    ex_arrays (Zi x1 eq_refl) (Zi a eq_refl) Zo ltac:(easy) Va Vb (HLk b eq_refl) (Hrs b eq_refl)) as (us & E2 & L2 & K2). cbn [app] in *.
  destruct (ex_out x1 a 1 eq_refl eq_refl) as (y & Ey & Sy). destruct (ex_out x1 b 1 eq_refl eq_refl) as (y' & Ey' & Sy'). rewrite Ey in *. rewrite Ey' in *.
  destruct ts as [|t [|? ?]]; try discriminate. destruct us as [|u [|? ?]]; try discriminate.
  destruct (K1 0%nat ltac:(cbn; lia)) as (t' & Et & St & Ent). injection Et as <-. destruct (K2 0%nat ltac:(cbn; lia)) as (u' & Eu & Su & Enu). injection Eu as <-. cbn [nth] in *. rewrite Sy in *. rewrite Sy' in *.
  exists ex_f, ex_params, x1, a, b, t, u. split; [exact ex_arrays|]. split; [exact Va|]. split; [exact Vb|]. split; [exact E1|]. split; [exact E2|]. split; [exact St|]. split; [exact Su|]. split.
  - change [0; 0]%nat with (layout [Full] [0%nat] [0%nat]). rewrite Ent by (cbn; auto). unfold kernel_at. cbn [traced fill tsum size fold_right hd tl]. rewrite (ex_kernel x1 a x1 a 1 1) by reflexivity. cbn. field.
  - change [0; 0]%nat with (layout [Full] [0%nat] [0%nat]). rewrite Enu by (cbn; auto). unfold kernel_at. cbn [traced fill tsum size fold_right hd tl]. rewrite (ex_kernel x1 a x1 b 1 1) by reflexivity. cbn. field.
Qed.
