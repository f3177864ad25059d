(** Masked kernels and statistics: C43, C64, C65, C66. *)
From Coq Require Import List Arith Lia Bool Reals Lra.
From Verif Require Import Base Model_Geom Spec_Geom Proof_Geom Model_Net Proof_Net Model_Elementwise Model_MaskNet
  Spec_MaskNet Proof_MaskStats Proof_MaskNet.
Import ListNotations.
Local Open Scope R_scope.

(** * C43 *)

(** Before pooling: the entries between unpadded positions are those of the kernel of
    the unpadded samples, wherever the padding is. *)
Theorem C43_positions c0 sp ch n1 (x1 : input) x2 db ntk ls xs ys ps1 ps2 i j k s :
  (0 < ch)%nat -> pads c0 sp ch xs ps1 (x1 i) ->
  pads c0 sp ch ys ps2 (match x2 with Some (_, x2) => x2 j | None => x1 j end) ->
  masked_network c0 sp ch n1 x1 x2 db ntk ls = Ok k ->
  pair_layers (map ml_layer ls) (pair_input ch xs ys) = Some s ->
  forall a b, (a < length xs)%nat -> (b < length ys)%nat ->
    s_nngp k [i; j] [nth a ps1 []; nth b ps2 []] = p_k s a b
    /\ (forall t, s_ntk k = Some t -> t [i; j] [nth a ps1 []; nth b ps2 []] = p_t s a b).
Proof.
  intros C P1 P2 F G a b La Lb.
  assert (pads c0 sp ch ys ps2 (second x1 x2 j)) as P2' by (unfold second; destruct x2 as [[n2 x2]|]; exact P2).
  destruct (masked_network_agrees _ _ _ _ _ _ _ _ _ _ _ _ _ _ _ _ _ C P1 P2' F G)
    as ((_ & _ & _ & _ & H12 & Ht) & _).
  destruct P1 as (_ & E1 & _). destruct P2' as (_ & E2 & _).
  split; [apply H12|intros t Et; apply (Ht t Et)]; lia.
Qed.
Print Assumptions C43_positions.

(** After [GlobalAvgPool] and any further layers: the whole kernel. *)
Theorem C43_pooled_partial c0 sp ch n1 (x1 : input) x2 db ntk ls ls' xs ys ps1 ps2 i j k s s' :
  (0 < ch)%nat -> pads c0 sp ch xs ps1 (x1 i) ->
  pads c0 sp ch ys ps2 (match x2 with Some (_, x2) => x2 j | None => x1 j end) ->
  (0 < length xs)%nat -> (0 < length ys)%nat -> Forall keeps_zeros ls ->
  masked_network_gap c0 sp ch n1 x1 x2 db ntk ls ls' = Ok k ->
  pair_layers (map ml_layer ls) (pair_input ch xs ys) = Some s ->
  pair_layers (map ml_layer ls') (pair_pool (length xs) (length ys) s) = Some s' ->
  s_nngp k [i; j] [[]; []] = p_k s' 0 0 /\ (forall t, s_ntk k = Some t -> t [i; j] [[]; []] = p_t s' 0 0).
Proof.
  intros C P1 P2 Lx Ly Fk F G G'.
  assert (pads c0 sp ch ys ps2 (second x1 x2 j)) as P2' by (unfold second; destruct x2 as [[n2 x2]|]; exact P2).
  destruct (masked_gap_agrees _ _ _ _ _ _ _ _ _ _ _ _ _ _ _ _ _ _ _ C P1 P2' Lx Ly Fk F G G')
    as ((_ & _ & _ & _ & H12 & Ht) & _).
  split; [apply (H12 0%nat 0%nat); cbn; lia|]. intros t E. apply (Ht t E 0%nat 0%nat); cbn; lia.
Qed.
Print Assumptions C43_pooled_partial.

(** Hence the padding does not matter: any two ways of padding give the same kernel. *)
Theorem C43_padding_irrelevant_partial c0 c0' sp sp' ch n1 n1' (x1 x1' : input) x2 x2' db db' ntk ls ls'
    xs ys ps1 ps2 ps1' ps2' i j i' j' k k' s s' :
  (0 < ch)%nat -> (0 < length xs)%nat -> (0 < length ys)%nat -> Forall keeps_zeros ls ->
  pads c0 sp ch xs ps1 (x1 i) -> pads c0 sp ch ys ps2 (x2 j) ->
  pads c0' sp' ch xs ps1' (x1' i') -> pads c0' sp' ch ys ps2' (x2' j') ->
  masked_network_gap c0 sp ch n1 x1 (Some (n1, x2)) db ntk ls ls' = Ok k ->
  masked_network_gap c0' sp' ch n1' x1' (Some (n1', x2')) db' ntk ls ls' = Ok k' ->
  pair_layers (map ml_layer ls) (pair_input ch xs ys) = Some s ->
  pair_layers (map ml_layer ls') (pair_pool (length xs) (length ys) s) = Some s' ->
  s_nngp k [i; j] [[]; []] = s_nngp k' [i'; j'] [[]; []].
Proof.
  intros C Lx Ly Fk P1 P2 P1' P2' F F' G G'.
  destruct (C43_pooled_partial c0 sp ch n1 x1 (Some (n1, x2)) db ntk ls ls' xs ys ps1 ps2 i j k s s') as (E & _); auto.
  destruct (C43_pooled_partial c0' sp' ch n1' x1' (Some (n1', x2')) db' ntk ls ls' xs ys ps1' ps2' i' j' k' s s')
    as (E' & _); auto.
  congruence.
Qed.
Print Assumptions C43_padding_irrelevant_partial.

(** The activations that are not masked again afterwards do keep zeros, with
    exceptions. *)
Theorem C43_activations (a b : R) d nl :
  In nl [ABRelu a b; Gabor; Gelu; Sign] \/ ((1 <= d)%nat /\ Monomial d = Ok nl) ->
  keeps_zeros (mkML (LNonlin nl) false).
Proof.
  intros H. right. cbn [ml_layer]. intros v w Z.
  assert (v * w = 0) as P by (destruct Z as [-> | ->]; ring).
  assert (forall x, sqrt_tol x 0 = sqrt (Rmax 0 x)) as S0 by reflexivity.
  assert (sqrt_tol 0 0 = 0) as S1 by (rewrite S0, Rmax_left by lra; apply sqrt_0).
  assert (abrelu_angle 0 0 = PI / 2) as An.
  { unfold abrelu_angle. replace (0 - 0 ^ 2) with 0 by ring. rewrite S1. unfold arctan2_fill.
    destruct (Req_EM_T 0 0); [reflexivity|lra]. }
  destruct H as [[<- | [<- | [<- | [<- | []]]]] | (D & M)].
  - cbn [ABRelu uniform_nl nl_nngp nl_cov]. rewrite P. replace (0 - 0 ^ 2) with 0 by ring. rewrite S1. split; ring.
  - cbn [Gabor uniform_nl nl_nngp nl_cov]. cbv zeta.
    replace (2 * 0 / (2 * (v + w) + 4 * (v * w - 0 ^ 2) + 1)) with 0 by (unfold Rdiv; ring).
    rewrite exp_0. split; unfold Rdiv; ring.
  - cbn [Gelu uniform_nl nl_nngp nl_cov]. cbv zeta. rewrite P. split; unfold Rdiv; ring.
  - cbn [Sign nl_nngp nl_cov]. rewrite P, An. unfold sign_cov. destruct (Req_EM_T 0 0); [|lra].
    split; [|reflexivity]. field. apply PI_neq0.
  - unfold Monomial in M. destruct (d <=? 5)%nat eqn:L; [|discriminate]. injection M as <-.
    cbn [uniform_nl nl_nngp nl_cov]. rewrite P. apply Nat.leb_le in L.
    do 6 (destruct d as [|d]; [cbn [monomial_nngp]; split; ring || lia|]). lia.
Qed.
Print Assumptions C43_activations.

Definition example_input : input := fun i p c =>
  match i, p with
  | 0%nat, [0%nat] => 2 | 0%nat, [2%nat] => 3 | 1%nat, [1%nat] => 4 | _, _ => 100
  end.

Example C43_example :
  pads 100 [3%nat] 1 [(fun _ => 2); (fun _ => 3)] [[0%nat]; [2%nat]] (example_input 0%nat)
  /\ pads 100 [3%nat] 1 [(fun _ => 4)] [[1%nat]] (example_input 1%nat)
  /\ Forall keeps_zeros [mkML (LDense 5 2 (Some 1) None) true; mkML (LNonlin Relu) false]
  /\ (exists k, masked_network_gap 100 [3%nat] 1 2 example_input None false true
         [mkML (LDense 5 2 (Some 1) None) true; mkML (LNonlin Relu) false] [mkML (LDense 1 1 None None) true] = Ok k)
  /\ exists s, pair_layers [LDense 5 2 (Some 1) None; LNonlin Relu]
                 (pair_input 1 [(fun _ => 2); (fun _ => 3)] [(fun _ => 4)]) = Some s.
Proof.
  split; [|split; [|split; [|split]]].
  - split; [repeat constructor; simpl; intuition discriminate|]. split; [reflexivity|]. split; [|split].
    + cbn. intuition.
    + intros [|[|a]] [|c] La Lc; cbn in *; try lia; split; lra.
    + intros p [|c] Hp N Lc; [|lia]. cbn in Hp. destruct Hp as [<- | [<- | [<- | []]]]; cbn in *; intuition.
  - split; [repeat constructor; simpl; intuition discriminate|]. split; [reflexivity|]. split; [|split].
    + cbn. intuition.
    + intros [|a] [|c] La Lc; cbn in *; try lia; split; lra.
    + intros p [|c] Hp N Lc; [|lia]. cbn in Hp. destruct Hp as [<- | [<- | [<- | []]]]; cbn in *; intuition.
  - apply Forall_cons; [left; reflexivity|]. apply Forall_cons; [|apply Forall_nil].
    apply (C43_activations 0 1 0). left. left. reflexivity.
  - eexists. reflexivity.
  - eexists. reflexivity.
Qed.

(** [Monomial(0)] (the constant 1) is not masked again and does not keep zeros: padded
    positions take part in the average. *)
Theorem C43_monomial_refuted :
  exists nl (x : input) k s, Monomial 0 = Ok nl
  /\ pads 100 [2%nat] 1 [(fun _ => 1)] [[0%nat]] (x 0%nat)
  /\ masked_network_gap 100 [2%nat] 1 1 x None false false
       [mkML (LDense 1 1 None None) true; mkML (LNonlin nl) false] [] = Ok k
  /\ pair_layers [LDense 1 1 None None; LNonlin nl] (pair_input 1 [(fun _ => 1)] [(fun _ => 1)]) = Some s
  /\ s_nngp k [0%nat; 0%nat] [[]; []] = 4 /\ p_k (pair_pool 1 1 s) 0 0 = 1.
Proof.
  eexists. exists (fun _ p _ => match p with [0%nat] => 1 | _ => 100 end). do 2 eexists.
  split; [reflexivity|]. split.
  { split; [repeat constructor; simpl; intuition|]. split; [reflexivity|]. split; [|split].
    + cbn. intuition.
    + intros [|a] [|c] La Lc; cbn in *; try lia; split; lra.
    + intros p [|c] Hp N Lc; [|lia]. cbn in Hp. destruct Hp as [<- | [<- | []]]; cbn in *; intuition. }
  split; [reflexivity|]. split; [reflexivity|]. split.
  - cbn -[is_const INR Rdiv]. unfold gpool_masked. cbn -[is_const INR Rdiv]. unfold position_mask, masked_mean, masked_size, count_true.
    cbn -[is_const INR Rdiv].
    assert (is_const 100 1 = false) as E1 by (unfold is_const; destruct (Req_EM_T 1 100); [lra|reflexivity]).
    assert (is_const 100 100 = true) as E2 by (unfold is_const; destruct (Req_EM_T 100 100); [reflexivity|lra]).
    unfold mask_prod. cbn -[is_const INR Rdiv]. rewrite E1, E2. cbn. lra.
  - unfold pair_pool, pair_average. cbn. field.
Qed.
Print Assumptions C43_monomial_refuted.

(** * C64 *)

(** The variances after the layer average to 1 up to [eps], over the axes normalised. *)
Theorem C64_unit_variance eps over sp (db ds : bool) c i p :
  in_shape sp p -> 0 < ln_var eps over sp db ds c i p ->
  mean_of (fibre over sp p) (fun q => dvar db ds (layer_norm eps over sp db ds c c c) i q)
  = 1 - eps / ln_var eps over sp db ds c i p.
Proof. exact (layer_norm_mean_var eps over sp db ds c i p). Qed.
Print Assumptions C64_unit_variance.

(** Over channels only, with [eps = 0]: the correlation. *)
Theorem C64_correlation sp (db ds : bool) (c1 c2 x : cov) bi s :
  layer_norm 0 [] sp db ds c1 c2 x bi s =
  x bi s / sqrt (dvar db ds c1 (hd 0%nat bi) (hd [] s) * dvar db ds c2 (last bi 0%nat) (last s [])).
Proof. unfold layer_norm. rewrite !ln_var_channels, !Rplus_0_l. reflexivity. Qed.
Print Assumptions C64_correlation.

(** Rescaling the two inputs by positive factors changes nothing. *)
Theorem C64_scale_invariant over sp (db ds : bool) (a b : R) (c1 c2 x c1' c2' x' : cov) bi s : 0 < a -> 0 < b ->
  (forall bi s, c1' bi s = a ^ 2 * c1 bi s) -> (forall bi s, c2' bi s = b ^ 2 * c2 bi s) ->
  (forall bi s, x' bi s = a * b * x bi s) ->
  0 < ln_var 0 over sp db ds c1 (hd 0%nat bi) (hd [] s) ->
  0 < ln_var 0 over sp db ds c2 (last bi 0%nat) (last s []) ->
  layer_norm 0 over sp db ds c1' c2' x' bi s = layer_norm 0 over sp db ds c1 c2 x bi s.
Proof. exact (layer_norm_scale over sp db ds a b c1 c2 x c1' c2' x' bi s). Qed.
Print Assumptions C64_scale_invariant.

(** The finite layer: outputs normalised together have mean 0 and variance 1 up to
    [eps]. *)
Theorem C64_finite {A} eps (l : list A) x : l <> [] -> 0 < eps + var_of l x ->
  mean_of l (layer_norm_apply eps None l x) = 0
  /\ var_of l (layer_norm_apply eps None l x) = var_of l x / (eps + var_of l x).
Proof. intros H P. split; [exact (layer_norm_mean eps l x H)|exact (layer_norm_var eps l x H P)]. Qed.
Print Assumptions C64_finite.

Example C64_example :
  let c : cov := fun _ s => match s with [[0%nat]] => 1 | _ => 3 end in
  in_shape [2%nat] [0%nat] /\ ln_var 1 [true] [2%nat] true true c 0 [0%nat] = 3
  /\ ln_var 0 [true] [2%nat] true true c 0 [1%nat] = 2
  /\ 0 < 1 + var_of [0%nat; 1%nat] INR.
Proof.
  cbv zeta. split; [repeat constructor|]. split; [|split].
  - unfold ln_var. cbn. lra.
  - unfold ln_var. cbn. lra.
  - unfold var_of, mean_of. cbn. lra.
Qed.

(** With masks, over spatial axes: [eps] is counted once for every masked position too. *)
Theorem C64_masked eps over sp (db ds : bool) (m : pmask) (c : cov) i p :
  let l := fibre over sp p in
  kept (m i) l <> [] -> (forall q, m i q = true -> dvar db ds c i q = 0) ->
  ln_var_masked eps over sp db ds m c i p =
  eps + mean_of (kept (m i) l) (dvar db ds c i) + eps * INR (count_true (m i) l) / INR (length (kept (m i) l)).
Proof.
  intros l H Z. unfold ln_var_masked, masked_mean. fold l. rewrite (masked_size_kept (m i) l H).
  rewrite (lsum_plus l (fun _ => eps) (dvar db ds c i)), lsum_const.
  rewrite (lsum_split (m i) l (dvar db ds c i)), (lsum_zero (filter (m i) l)).
  - rewrite (length_split (m i) l), plus_INR. unfold mean_of. pose proof (INR_pos_length _ H). field. lra.
  - intros q Hq. apply filter_In in Hq. apply Z, Hq.
Qed.
Print Assumptions C64_masked.

Example C64_masked_example :
  let m : pmask := fun _ q => match q with [1%nat] => true | _ => false end in
  kept (m 0%nat) (fibre [true] [2%nat] [0%nat]) <> [].
Proof. cbn. discriminate. Qed.

(** * C65 *)

(** The mean is the mean of the unmasked entries. *)
Theorem C65_mean {A} (m : A -> bool) l x : kept m l <> [] ->
  masked_mean (Some m) l (zeroed m x) = mean_of (kept m l) x.
Proof. exact (masked_mean_kept m l x). Qed.
Print Assumptions C65_mean.

(** The variance is too large by the squared mean, once per masked entry. *)
Theorem C65_variance_partial {A} (m : A -> bool) l x : kept m l <> [] ->
  masked_var (Some m) l (zeroed m x) =
  var_of (kept m l) x + INR (count_true m l) * mean_of (kept m l) x ^ 2 / INR (length (kept m l)).
Proof. exact (masked_var_kept m l x). Qed.
Print Assumptions C65_variance_partial.

(** It is right exactly when nothing is masked or the mean is 0. *)
Theorem C65_exact {A} (m : A -> bool) l x : kept m l <> [] ->
  (masked_var (Some m) l (zeroed m x) = var_of (kept m l) x <->
   count_true m l = 0%nat \/ mean_of (kept m l) x = 0).
Proof. exact (masked_var_exact m l x). Qed.
Print Assumptions C65_exact.

Theorem C65_refuted :
  exists (m : nat -> bool) l x, kept m l <> [] /\ masked_var (Some m) l (zeroed m x) <> var_of (kept m l) x.
Proof.
  exists (fun a => (a =? 1)%nat), [0%nat; 1%nat], (fun _ => 1).
  split; [cbn; discriminate|]. intros E. apply C65_exact in E; [|cbn; discriminate].
  destruct E as [E|E]; [cbn in E; discriminate|]. unfold mean_of in E. cbn in E. lra.
Qed.
Print Assumptions C65_refuted.

(** * C66 *)

(** Both layouts, up to the numbers they divide by. *)
Theorem C66_relation_partial sp ma mb (x d : cov) i j o o' : (0 < vol sp)%nat ->
  (forall p q, In p (locs sp) -> In q (locs sp) -> x [i; j] [p; q] = if loc_eqb p q then d [i; j] [p] else 0) ->
  gpool_masked true sp false ma mb x [i; j] o
    * INR (Nat.max (length (kept (ma i) (locs sp)) * length (kept (mb j) (locs sp))) 1) =
  gpool_masked true sp true ma mb d [i; j] o' *
    (INR (Nat.max (length (kept (fun p => ma i p || mb j p) (locs sp))) 1) * INR (vol sp)).
Proof. exact (gpool_relation sp ma mb x d i j o o'). Qed.
Print Assumptions C66_relation_partial.

(** They agree for all covariances exactly when these numbers do. *)
Theorem C66_agree_iff sp ma mb i j : (0 < vol sp)%nat ->
  ((forall (x d : cov),
     (forall p q, In p (locs sp) -> In q (locs sp) -> x [i; j] [p; q] = if loc_eqb p q then d [i; j] [p] else 0) ->
     gpool_masked true sp false ma mb x [i; j] [] = gpool_masked true sp true ma mb d [i; j] [])
   <-> (Nat.max (length (kept (ma i) (locs sp)) * length (kept (mb j) (locs sp))) 1 =
        Nat.max (length (kept (fun p => ma i p || mb j p) (locs sp))) 1 * vol sp)%nat).
Proof. exact (gpool_agree_iff sp ma mb i j). Qed.
Print Assumptions C66_agree_iff.

(** In particular without masked positions, and always for sums. *)
Theorem C66_unmasked sp ma mb (x d : cov) i j : (0 < vol sp)%nat ->
  (forall p, In p (locs sp) -> ma i p = false /\ mb j p = false) ->
  (forall p q, In p (locs sp) -> In q (locs sp) -> x [i; j] [p; q] = if loc_eqb p q then d [i; j] [p] else 0) ->
  gpool_masked true sp false ma mb x [i; j] [] = gpool_masked true sp true ma mb d [i; j] [].
Proof.
  intros V M H. apply (proj2 (gpool_agree_iff sp ma mb i j V)); [|exact H].
  rewrite !left_over_none.
  - lia.
  - intros p Hp. destruct (M p Hp) as [-> ->]. reflexivity.
  - intros p Hp. apply M, Hp.
  - intros p Hp. apply M, Hp.
Qed.
Print Assumptions C66_unmasked.

Theorem C66_sum sp ma mb (x d : cov) i j o o' :
  (forall p q, In p (locs sp) -> In q (locs sp) -> x [i; j] [p; q] = if loc_eqb p q then d [i; j] [p] else 0) ->
  gpool_masked false sp false ma mb x [i; j] o = gpool_masked false sp true ma mb d [i; j] o'.
Proof. exact (gpool_sum sp ma mb x d i j o o'). Qed.
Print Assumptions C66_sum.

(** One of two positions masked: the full layout divides by 1, the diagonal one by 2. *)
Theorem C66_refuted :
  exists sp (m : pmask) (x d : cov), (0 < vol sp)%nat
  /\ (forall p q, In p (locs sp) -> In q (locs sp) ->
        x [0%nat; 0%nat] [p; q] = if loc_eqb p q then d [0%nat; 0%nat] [p] else 0)
  /\ (forall p, m 0%nat p = true -> d [0%nat; 0%nat] [p] = 0)
  /\ gpool_masked true sp false m m x [0%nat; 0%nat] [] = 1
  /\ gpool_masked true sp true m m d [0%nat; 0%nat] [] = / 2.
Proof.
  exists [2%nat], (fun _ p => match p with [1%nat] => true | _ => false end).
  exists (fun _ s => match s with [[0%nat]; [0%nat]] => 1 | _ => 0 end).
  exists (fun _ s => match s with [[0%nat]] => 1 | _ => 0 end).
  split; [cbn; lia|]. split; [|split; [|split]].
  - intros p q Hp Hq. cbn in Hp, Hq. destruct Hp as [<- | [<- | []]], Hq as [<- | [<- | []]]; reflexivity.
  - intros [|[|[|n]] [|]]; cbn; try discriminate; reflexivity.
  - unfold gpool_masked, masked_mean, masked_size, count_true, mask_prod. cbn. lra.
  - unfold gpool_masked, masked_mean, masked_size, count_true, mask_prod. cbn. lra.
Qed.
Print Assumptions C66_refuted.
