(** Property theorems: requirements and the combinators [serial], [repeat]
    (C20, C21, C22, C24). *)
From Coq Require Import List Arith ZArith Lia Bool.
From Verif Require Import Base Model_Get Model_Req Spec_Req Proof_Req Proof_Serial.
Import ListNotations.

(** ** C20 *)
Theorem C20_and_commutative : forall a b, dand a b = dand b a.
Proof. exact dand_comm. Qed.
Print Assumptions C20_and_commutative.

Theorem C20_and_associative : forall a b c, dand a (dand b c) = dand (dand a b) c.
Proof. exact dand_assoc. Qed.
Print Assumptions C20_and_associative.

Theorem C20_and_idempotent : forall a, dand a a = a.
Proof. exact dand_idem. Qed.
Print Assumptions C20_and_idempotent.

(** [&] is the greatest lower bound of the componentwise order NO < MAYBE < YES. *)
Theorem C20_and_greatest_lower_bound : forall a b c,
  (rank (d_in c) <= rank (d_in (dand a b)) /\ rank (d_out c) <= rank (d_out (dand a b)))
  <-> (rank (d_in c) <= rank (d_in a) /\ rank (d_in c) <= rank (d_in b)
       /\ rank (d_out c) <= rank (d_out a) /\ rank (d_out c) <= rank (d_out b)).
Proof. exact dand_glb. Qed.
Print Assumptions C20_and_greatest_lower_bound.

Theorem C20_shift_associative : forall a b c, dshift a (dshift b c) = dshift (dshift a b) c.
Proof. exact dshift_assoc. Qed.
Print Assumptions C20_shift_associative.

(** Grouping a list of requirements in any way (lists of any length). *)
Theorem C20_grouping : forall groups : list (list req), Forall (Forall plain) groups ->
  input_req Shift (concat groups) = bind (mapR (input_req Shift) groups) (input_req Shift).
Proof. exact input_req_concat. Qed.
Print Assumptions C20_grouping.

(** More layers after a layer only lower what is allowed at its input; a layer that
    discards the off-diagonals fixes the requirement; and a refusal further down is
    felt unless some layer in between discards. *)
Theorem C20_later_layers_never_allow : forall a b, rank (d_in (dshift a b)) <= rank (d_in a).
Proof. exact dshift_in_le. Qed.
Print Assumptions C20_later_layers_never_allow.

Theorem C20_discarding_layer_decides : forall a b, d_out a = YES -> dshift a b = a.
Proof. exact dshift_discards. Qed.
Print Assumptions C20_discarding_layer_decides.

Theorem C20_later_refusal_is_felt : forall a b, d_out a <> YES -> d_in b = NO -> d_in (dshift a b) = NO.
Proof. exact dshift_blocked. Qed.
Print Assumptions C20_later_refusal_is_felt.

Example C20_example : dshift (mkD YES NO) (dshift (mkD MAYBE NO) (mkD YES YES)) = mkD NO YES
  /\ dand (mkD YES NO) (mkD MAYBE YES) = mkD MAYBE NO
  /\ dshift (mkD MAYBE YES) (mkD NO NO) = mkD MAYBE YES.
Proof. auto. Qed.

Example C20_grouping_example :
  let r d := mkReq None (Some 0%Z) None None (Some (DD d)) in
  let gs := [[r (mkD YES NO); r (mkD MAYBE NO)]; [no_req]; [r (mkD YES YES)]] in
  Forall (Forall plain) gs /\ input_req Shift (concat gs) = Ok (r (mkD NO YES)).
Proof. split; [repeat constructor|reflexivity]. Qed.

(** ** C21 *)
Theorem C21_bracketing : forall (K Sh X P : Type) (meta_of : K -> meta) (shape_of : K -> Sh) (set_shape : Sh -> K -> K)
    (t : net (X := X) (P := P)) l f, shape_lens shape_of set_shape ->
  build meta_of shape_of set_shape t = Ok l -> serial meta_of shape_of set_shape (leaves t) = Ok f ->
  Forall (well_behaved meta_of set_shape) (leaves t) ->
  l_req l = l_req f
  /\ (forall s, l_shape l s = l_shape f s)
  /\ (forall u k, request_compatible u (leaves t) ->
        same_outcome (run meta_of shape_of set_shape l u k) (run meta_of shape_of set_shape f u k)).
Proof. intros K Sh X P mo so ss t l f HL. exact (serial_assoc mo so ss HL t l f). Qed.
Print Assumptions C21_bracketing.

Theorem C21_builds_alike : forall (K Sh X P : Type) (meta_of : K -> meta) (shape_of : K -> Sh) (set_shape : Sh -> K -> K)
    (t : net (X := X) (P := P)), Forall (well_behaved meta_of set_shape) (leaves t) -> nonempty t = true ->
  (exists l, build meta_of shape_of set_shape t = Ok l) <-> (exists f, serial meta_of shape_of set_shape (leaves t) = Ok f).
Proof. exact @build_serial. Qed.
Print Assumptions C21_builds_alike.

Theorem C21_apply : forall (K Sh X P : Type) (meta_of : K -> meta) (shape_of : K -> Sh) (set_shape : Sh -> K -> K)
    (t : net (X := X) (P := P)) p fp l f x, par_flat t p fp ->
  build meta_of shape_of set_shape t = Ok l -> serial meta_of shape_of set_shape (leaves t) = Ok f ->
  l_apply l p x = l_apply f (PNode fp) x.
Proof. exact @serial_apply. Qed.
Print Assumptions C21_apply.

(** A toy kernel: metadata, a number, a shape. *)
Definition exK := (meta * nat * nat)%type.
Definition ex_meta (k : exK) : meta := fst (fst k).
Definition ex_shape (k : exK) : nat := snd k.
Definition ex_set (s : nat) (k : exK) : exK := (fst k, s).
Definition ex_layer (r : req) (m : meta -> meta) (v : nat -> nat) (s : nat -> result nat)
  : layer (K := exK) (Sh := nat) (X := nat) (P := params nat) :=
  mkLayer r (fun _ k => Ok (m (fst (fst k)), v (snd (fst k)), snd k)) s
          (fun p x => match p with PLeaf q => Ok (q * x) | _ => Raise TypeError end).
Definition ex_req d := mkReq None (Some 0%Z) (Some (Some (-1)%Z)) None (Some (DD d)).
Definition ex_conv := ex_layer (ex_req (mkD YES NO)) (fun m => m) (fun v => 2 * v) (fun s => if s =? 0 then Raise ValueError else Ok (s - 1)).
Definition ex_pool := ex_layer (ex_req (mkD MAYBE NO)) (fun m => m) S (fun s => Ok s).
Definition ex_flat := ex_layer (mkReq None (Some 0%Z) (Some None) None (Some (DD (mkD YES YES))))
  (fun m => mkMeta (m_db m) (DB false) 0 1 2) (fun v => v) (fun s => Ok s).
Definition ex_net := Ser [Leaf ex_conv; Ser [Ser [Leaf ex_conv; Leaf ex_pool]; Leaf ex_flat]].
Definition ex_in (ds : bool) : exK := (mkMeta (DB true) (DB ds) 0 3 4, 1, 2).

Lemma ex_wb : Forall (well_behaved ex_meta ex_set) (leaves ex_net).
Proof.
  repeat constructor; simpl in *; try injection H as <-; simpl in *; try discriminate; auto;
  intros (i & E); discriminate.
Qed.

Example C21_example :
  shape_lens ex_shape ex_set
  /\ Forall (well_behaved ex_meta ex_set) (leaves ex_net)
  /\ request_compatible (mkUser None None) (leaves ex_net)
  /\ rmap l_req (build ex_meta ex_shape ex_set ex_net) = Ok (ex_req (mkD NO YES))
  /\ rmap (fun l => run ex_meta ex_shape ex_set l (mkUser None None) (ex_in false)) (build ex_meta ex_shape ex_set ex_net)
     = Ok (Ok (mkMeta (DB true) (DB false) 0 1 2, 5, 0)%nat)
  /\ rmap (fun l => run ex_meta ex_shape ex_set l (mkUser None None) (ex_in true)) (build ex_meta ex_shape ex_set ex_net)
     = Ok (Raise ValueError)
  /\ par_flat ex_net (PNode [PLeaf 2; PNode [PNode [PLeaf 3; PLeaf 5]; PLeaf 7]]) [PLeaf 2; PLeaf 3; PLeaf 5; PLeaf 7]
  /\ rmap (fun l => l_apply l (PNode [PLeaf 2; PNode [PNode [PLeaf 3; PLeaf 5]; PLeaf 7]]) 1)
       (build ex_meta ex_shape ex_set ex_net) = Ok (Ok 210).
Proof.
  split. { split; [|split]; intros; auto. now destruct k as [[]]. }
  split; [exact ex_wb|]. split; [intros E; discriminate|].
  repeat (split; [reflexivity|]). split; [|reflexivity].
  change [PLeaf 2; PLeaf 3; PLeaf 5; PLeaf 7] with (concat [[PLeaf 2]; concat [concat [[PLeaf 3]; [PLeaf 5]]; [PLeaf 7]]]).
  repeat constructor.
Qed.

(** Refuted for [diagonal_batch]: layers declare a Python boolean and [serial] shifts
    the integers, which is not associative. Three [ImageResize] layers that only resize
    spatial axes: [True >> (True >> True) = 1] but [(True >> True) >> True = 0]. *)
Definition ex_resize := ex_layer (mkReq None (Some 0%Z) (Some (Some (-1)%Z)) (Some (DB true)) (Some (DD (mkD NO NO))))
  (fun m => m) S (fun s => Ok s).

Theorem C21_diagonal_batch_refuted : exists (t : net (K := exK) (Sh := nat) (X := nat) (P := nat)) l f,
  build ex_meta ex_shape ex_set t = Ok l /\ serial ex_meta ex_shape ex_set (leaves t) = Ok f
  /\ r_db (l_req l) <> r_db (l_req f)
  /\ rmap fst (input_layout (l_req l) (mkUser None None)) = Ok (DI 1)
  /\ rmap fst (input_layout (l_req f) (mkUser None None)) = Ok (DI 0).
Proof.
  exists (Ser [Leaf ex_resize; Ser [Leaf ex_resize; Leaf ex_resize]]).
  do 2 eexists. split; [reflexivity|]. split; [reflexivity|]. split; [discriminate|]. split; reflexivity.
Qed.
Print Assumptions C21_diagonal_batch_refuted.

(** And [request_compatible] is needed: with an explicit [diagonal_spatial=True], after a
    layer that discards the off-diagonals, a nested convolution and pool are refused
    (their combined requirement is), the same layers in one [serial] are not. *)
Definition ex_any d := ex_layer (mkReq None None None None (Some (DD d)))
  (fun m => mkMeta (m_db m) (match d_out d with YES => DB false | _ => m_ds m end) (m_batch m) (m_channel m) (m_ndim m)) S (fun s => Ok s).

Theorem C21_explicit_request_refuted : exists (t : net (K := exK) (Sh := nat) (X := nat) (P := nat)) l f k k',
  Forall (well_behaved ex_meta ex_set) (leaves t)
  /\ build ex_meta ex_shape ex_set t = Ok l /\ serial ex_meta ex_shape ex_set (leaves t) = Ok f
  /\ run ex_meta ex_shape ex_set l (mkUser None (Some true)) k = Raise ValueError
  /\ run ex_meta ex_shape ex_set f (mkUser None (Some true)) k = Ok k'.
Proof.
  exists (Ser [Leaf (ex_any (mkD MAYBE YES)); Ser [Leaf (ex_any (mkD YES NO)); Leaf (ex_any (mkD MAYBE NO))]]).
  do 2 eexists. exists (ex_in true). eexists. split.
  { repeat constructor; simpl in *; try injection H as <-; simpl in *; try discriminate; auto;
    intros (i & E); discriminate. }
  repeat (split; [reflexivity|]). reflexivity.
Qed.
Print Assumptions C21_explicit_request_refuted.

(** ** C22 *)
Theorem C22_kernel : forall (K Sh X P : Type) (meta_of : K -> meta) (shape_of : K -> Sh) (set_shape : Sh -> K -> K)
    (same_static : K -> K -> bool) (l : layer (X := X) (P := params P)) n f u k,
  serial meta_of shape_of set_shape (List.repeat l n) = Ok f ->
  (forall a b c, run meta_of shape_of set_shape l u a = Ok b -> run meta_of shape_of set_shape l u b = Ok c ->
                 same_static b c = true) ->
  l_body (repeat meta_of shape_of set_shape same_static l n) u k = l_body f u k
  /\ (forall s, l_shape (repeat meta_of shape_of set_shape same_static l n) s = l_shape f s)
  /\ (forall p x, l_apply (repeat meta_of shape_of set_shape same_static l n) p x = l_apply f p x).
Proof. exact @repeat_body_serial. Qed.
Print Assumptions C22_kernel.

(** With no condition on the layer: whatever [repeat] returns, [serial] returns. *)
Theorem C22_sound : forall (K Sh X P : Type) (meta_of : K -> meta) (shape_of : K -> Sh) (set_shape : Sh -> K -> K)
    (same_static : K -> K -> bool) (l : layer (X := X) (P := params P)) n f u k k',
  serial meta_of shape_of set_shape (List.repeat l n) = Ok f ->
  l_body (repeat meta_of shape_of set_shape same_static l n) u k = Ok k' -> l_body f u k = Ok k'.
Proof. exact @repeat_sound. Qed.
Print Assumptions C22_sound.

Theorem C22_zero : forall (K Sh X P : Type) (meta_of : K -> meta) (shape_of : K -> Sh) (set_shape : Sh -> K -> K)
    (same_static : K -> K -> bool), shape_lens shape_of set_shape ->
  forall (l : layer (X := X) (P := params P)) u k, check (l_req l) u (meta_of k) = Ok tt ->
  run meta_of shape_of set_shape (repeat meta_of shape_of set_shape same_static l 0) u k = Ok k.
Proof. exact @repeat_zero_ok. Qed.
Print Assumptions C22_zero.

(** The requirement of [repeat] is that of one layer; it is the requirement of [n]
    copies in series for every [n] exactly when the layer does not declare
    [Diagonal(input=MAYBE, output=NO)]. *)
Theorem C22_requirement_iff : forall r, plain r ->
  (forall n, 1 <= n -> input_req Shift (List.repeat r n) = Ok r) <-> r_ds r <> Some (DD (mkD MAYBE NO)).
Proof. exact repeat_req_iff. Qed.
Print Assumptions C22_requirement_iff.

Example C22_example :
  rmap (fun f => l_body f (mkUser None None) (ex_in false)) (serial ex_meta ex_shape ex_set (List.repeat ex_conv 2))
    = Ok (Ok (mkMeta (DB true) (DB false) 0 3 4, 4, 0)%nat)
  /\ l_body (repeat ex_meta ex_shape ex_set (fun _ _ => true) ex_conv 2) (mkUser None None) (ex_in false)
    = Ok (mkMeta (DB true) (DB false) 0 3 4, 4, 0)%nat
  /\ check (l_req ex_conv) (mkUser None None) (ex_meta (ex_in false)) = Ok tt
  /\ plain (l_req ex_conv) /\ r_ds (l_req ex_conv) <> Some (DD (mkD MAYBE NO)).
Proof. repeat (split; [reflexivity|]). split; [repeat split|discriminate]. Qed.

(** Refuted: [AvgPool] declares [MAYBE, NO]. After a locally connected layer and before
    [Flatten], two pools in series make the network ask for full covariances and the
    same two pools in [repeat] make it compute diagonals. *)
Theorem C22_requirement_refuted : exists lcn f (s p : layer (K := exK) (Sh := nat) (X := nat) (P := params nat)) flat,
  serial ex_meta ex_shape ex_set (List.repeat ex_pool 2) = Ok s
  /\ p = repeat ex_meta ex_shape ex_set (fun _ _ => true) ex_pool 2
  /\ lcn = ex_req (mkD YES MAYBE) /\ flat = l_req ex_flat
  /\ l_req s <> l_req p
  /\ (forall u k, l_body s u k = l_body p u k)
  /\ rmap (fun r => rmap snd (input_layout r (mkUser None None))) (input_req Shift [lcn; l_req s; flat]) = Ok (Ok (DB false))
  /\ rmap (fun r => rmap snd (input_layout r (mkUser None None))) (input_req Shift [lcn; l_req p; flat]) = Ok (Ok f)
  /\ f = DB true.
Proof.
  do 5 eexists. split; [reflexivity|]. split; [reflexivity|]. split; [reflexivity|]. split; [reflexivity|].
  split; [discriminate|]. split.
  { intros u k. destruct (repeat_body_serial ex_meta ex_shape ex_set (fun _ _ => true) ex_pool 2 _ u k eq_refl) as [-> _]; auto. }
  split; [reflexivity|]. split; reflexivity.
Qed.
Print Assumptions C22_requirement_refuted.

(** ** C24 *)
Theorem C24_requests : forall r u,
  (fuse true r u = Raise ValueError <->
     (u_db u = Some true /\ exists v, r_db r = Some v /\ insufficient v = true)
     \/ (u_ds u = Some true /\ exists v, r_ds r = Some v /\ insufficient v = true))
  /\ (forall e, fuse true r u = Raise e -> e = ValueError)
  /\ forall f, fuse true r u = Ok f ->
     r_db f = Some (match u_db u, r_db r with Some b, _ => DB b | None, Some v => v | None, None => DB true end)
     /\ r_ds f = Some (match u_ds u, r_ds r with Some b, _ => DB b | None, Some v => v | None, None => DB false end)
     /\ r_batch f = Some (match r_batch r with Some b => b | None => 0%Z end)
     /\ r_channel f = Some (match r_channel r with Some c => c | None => Some (-1)%Z end).
Proof. exact fuse_spec. Qed.
Print Assumptions C24_requests.

(** No layer runs on a kernel marked diagonal that it declared insufficient, whatever
    the user asks for. *)
Theorem C24_guard : forall r u m v,
  (r_db r = Some v /\ m_db m = DB true \/ r_ds r = Some v /\ m_ds m = DB true) ->
  insufficient v = true -> check r u m = Raise ValueError.
Proof.
  intros r u m v H. apply check_guards.
  destruct H as [[H1 H2]|[H1 H2]]; [left|right]; rewrite H2; auto.
Qed.
Print Assumptions C24_guard.

(** The layout settled on at the input passes the layout checks of every layer. *)
Theorem C24_layout_accepted : forall (K Sh X P : Type) (meta_of : K -> meta) (shape_of : K -> Sh) (set_shape : Sh -> K -> K)
    (pre post : list (layer (X := X) (P := params P))) l r u k k' db ds,
  Forall (well_behaved meta_of set_shape) (pre ++ l :: post) ->
  input_req Shift (map l_req (pre ++ l :: post)) = Ok r ->
  request_compatible u (pre ++ l :: post) ->
  input_layout r u = Ok (db, ds) -> m_db (meta_of k) = db -> m_ds (meta_of k) = ds ->
  run_all meta_of shape_of set_shape pre u k = Ok k' ->
  check (mkReq (r_dropout (l_req l)) None None (r_db (l_req l)) (r_ds (l_req l))) u (meta_of k') = Ok tt.
Proof. exact @own_layout_accepted. Qed.
Print Assumptions C24_layout_accepted.

Example C24_example :
  fuse true (ex_req (mkD NO YES)) (mkUser None (Some true)) = Raise ValueError
  /\ rmap r_ds (fuse true (ex_req (mkD MAYBE YES)) (mkUser None (Some true))) = Ok (Some (DB true))
  /\ rmap r_ds (fuse true (ex_req (mkD MAYBE YES)) (mkUser None None)) = Ok (Some (DD (mkD MAYBE YES)))
  /\ rmap r_db (fuse true (ex_req (mkD MAYBE YES)) (mkUser None None)) = Ok (Some (DB true))
  /\ rmap (fun r => input_layout r (mkUser None None)) (input_req Shift (map l_req (leaves ex_net))) = Ok (Ok (DB true, DB false))
  /\ Forall (well_behaved ex_meta ex_set) ([ex_conv; ex_conv] ++ ex_pool :: [ex_flat])
  /\ is_ok (run_all ex_meta ex_shape ex_set [ex_conv; ex_conv] (mkUser None None) (ex_in false)) = true.
Proof. repeat (split; [reflexivity|]). split; [exact ex_wb|reflexivity]. Qed.

(** Refuted for [diagonal_batch]: a layer that works on any layout followed by one that
    declared [diagonal_batch=False]. The two booleans combine to [True >> False = 1];
    the input kernel is batch-diagonal and says so with the integer [1], which is not
    [True], so the second layer runs on it. And a user asking for diagonals is not
    refused when the first of the two declares [False], [False >> True] being [0]. *)
Theorem C24_diagonal_batch_refuted : exists any full r db ds,
  r_db any = Some (DB true) /\ r_db full = Some (DB false) /\ insufficient (DB false) = true
  /\ input_req Shift [any; full] = Ok r /\ input_layout r (mkUser None None) = Ok (db, ds)
  /\ truthy db = true
  /\ check any (mkUser None None) (mkMeta db ds 0 3 4) = Ok tt
  /\ check full (mkUser None None) (mkMeta db ds 0 3 4) = Ok tt
  /\ exists r', input_req Shift [full; any] = Ok r' /\ is_ok (fuse true r' (mkUser (Some true) None)) = true.
Proof.
  exists (mkReq None (Some 0%Z) (Some (Some (-1)%Z)) (Some (DB true)) (Some (DD (mkD NO NO)))),
         (mkReq None (Some 0%Z) (Some (Some (-1)%Z)) (Some (DB false)) (Some (DD (mkD NO NO)))).
  do 3 eexists. repeat (split; [reflexivity|]). eexists. split; reflexivity.
Qed.
Print Assumptions C24_diagonal_batch_refuted.
