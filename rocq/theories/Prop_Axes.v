(** Property theorems: axis utilities (C01, C04, C71). *)
From Coq Require Import List Arith Lia Bool.
From Verif Require Import Base Tensor Reshape Model_Axes Spec_Axes Proof_Axes Proof_Axes2.
Import ListNotations.

(** ** C01 *)
Theorem C01_zip_entries : forall A (x : tensor A) s e (sb sp sq se : list nat),
  shape x = sb ++ sp ++ sq ++ se -> length sp = length sq -> s = length sb ->
  end_of e (ndim x) = s + 2 * length sp ->
  exists y, zip_axes x s e = Ok y
    /\ shape y = sb ++ interleave sp sq ++ se
    /\ forall b p q r, length b = length sb -> length p = length sp ->
       length q = length sq -> length r = length se ->
       entry y (b ++ interleave p q ++ r) = entry x (b ++ p ++ q ++ r).
Proof. exact @zip_axes_spec. Qed.
Print Assumptions C01_zip_entries.

Theorem C01_unzip_entries : forall A (x : tensor A) s e (sb sp sq se : list nat),
  shape x = sb ++ interleave sp sq ++ se -> length sp = length sq -> s = length sb ->
  end_of e (ndim x) = s + 2 * length sp ->
  exists y, unzip_axes x s e = Ok y
    /\ shape y = sb ++ sp ++ sq ++ se
    /\ forall b p q r, length b = length sb -> length p = length sp ->
       length q = length sq -> length r = length se ->
       entry y (b ++ p ++ q ++ r) = entry x (b ++ interleave p q ++ r).
Proof. exact @unzip_axes_spec. Qed.
Print Assumptions C01_unzip_entries.

Theorem C01_unzip_zip : forall A (x : tensor A) s e,
  s <= end_of e (ndim x) -> end_of e (ndim x) <= ndim x -> (end_of e (ndim x) - s) mod 2 = 0 ->
  exists y z, zip_axes x s e = Ok y /\ unzip_axes y s e = Ok z /\ teq z x.
Proof. exact @unzip_zip. Qed.
Print Assumptions C01_unzip_zip.

Theorem C01_zip_unzip : forall A (x : tensor A) s e,
  s <= end_of e (ndim x) -> end_of e (ndim x) <= ndim x -> (end_of e (ndim x) - s) mod 2 = 0 ->
  exists y z, unzip_axes x s e = Ok y /\ zip_axes y s e = Ok z /\ teq z x.
Proof. exact @zip_unzip. Qed.
Print Assumptions C01_zip_unzip.

Theorem C01_odd_rejected : forall A (x : tensor A) s e,
  (end_of e (ndim x) - s) mod 2 = 1 ->
  zip_axes x s e = Raise ValueError /\ unzip_axes x s e = Raise ValueError.
Proof. exact (fun A x s e H => conj (zip_axes_odd x s e false H) (zip_axes_odd x s e true H)). Qed.
Print Assumptions C01_odd_rejected.

(** A (2, 3, 5, 3, 5)-shaped covariance: batch axis 0, spatial axes 1.. *)
Definition ex_cov : tensor (list nat) := mkT [2; 3; 5; 3; 5] (fun i => i).
Example C01_example :
  (exists y, zip_axes ex_cov 1 None = Ok y /\ shape y = [2; 3; 3; 5; 5]
             /\ entry y [1; 2; 0; 4; 3] = entry ex_cov [1; 2; 4; 0; 3])
  /\ (end_of None (ndim ex_cov) - 1) mod 2 = 0
  /\ (end_of None (ndim ex_cov) - 2) mod 2 = 1.
Proof. split; [eexists; split; [reflexivity|split; reflexivity]|split; reflexivity]. Qed.

(** ** C04 *)
(** Left operand (and right operand when it comes first in the reported
    layout): the reported position holds exactly this axis. *)
Theorem C04_axis_after_dot_lhs : forall n c b axis,
  NoDup c -> NoDup b -> (forall x, In x c -> x < n) -> (forall x, In x b -> x < n) ->
  (forall x, In x c -> ~ In x b) -> axis < n -> ~ In axis c ->
  axis_after_dot axis c b None < length (lhs_result_axes n c b) /\
  nth (axis_after_dot axis c b None) (lhs_result_axes n c b) 0 = axis.
Proof. exact axis_after_dot_lhs. Qed.
Print Assumptions C04_axis_after_dot_lhs.

Theorem C04_axis_after_dot_rhs : forall lhs_ndim cl bl n c b axis,
  NoDup cl -> NoDup bl -> (forall x, In x cl -> x < lhs_ndim) -> (forall x, In x bl -> x < lhs_ndim) ->
  (forall x, In x cl -> ~ In x bl) -> length cl = length c -> length bl = length b ->
  NoDup c -> NoDup b -> (forall x, In x c -> x < n) -> (forall x, In x b -> x < n) ->
  (forall x, In x c -> ~ In x b) -> axis < n -> ~ In axis c ->
  nth (axis_after_dot axis c b (Some lhs_ndim)) (rhs_result_axes lhs_ndim cl bl n c b) None = Some axis.
Proof. exact axis_after_dot_rhs. Qed.
Print Assumptions C04_axis_after_dot_rhs.

Example C04_example :
  lhs_result_axes 4 [1] [2] = [2; 0; 3] /\ axis_after_dot 3 [1] [2] None = 2
  /\ rhs_result_axes 3 [2] [0] 4 [1] [2] = [Some 2; None; Some 0; Some 3]
  /\ axis_after_dot 0 [1] [2] (Some 3) = 2.
Proof. repeat split. Qed.

(** ** C71 *)
Theorem C71_make_2d : forall A (x : tensor A) e (sb sp sq se : list nat),
  shape x = sb ++ interleave sp sq ++ se -> length sp = length sq ->
  end_of e (ndim x) = length sb + 2 * length sp ->
  exists y, make_2d x (length sb) e = Ok y
    /\ shape y = sb ++ [size sp; size sq] ++ se
    /\ forall b p q r, in_range sb b -> in_range sp p -> in_range sq q -> in_range se r ->
       entry y (b ++ [ravel sp p; ravel sq q] ++ r) = entry x (b ++ interleave p q ++ r).
Proof. exact @make_2d_spec. Qed.
Print Assumptions C71_make_2d.

Theorem C71_diagonal_between : forall A (x : tensor A) e (sb sp se : list nat),
  shape x = sb ++ sp ++ sp ++ se ->
  end_of e (ndim x) = length sb + 2 * length sp ->
  exists y, diagonal_between x (length sb) e = Ok y
    /\ shape y = sb ++ sp ++ se
    /\ forall b p r, in_range sb b -> in_range sp p -> in_range se r ->
       entry y (b ++ p ++ r) = entry x (b ++ p ++ p ++ r).
Proof. exact @diagonal_between_spec. Qed.
Print Assumptions C71_diagonal_between.

Theorem C71_outer_prod : forall A C (op : A -> A -> C) (x y : tensor A) (sb sp sq se : list nat),
  shape x = sb ++ sp ++ se -> shape y = sb ++ sq ++ se -> length sp = length sq ->
  exists z, outer_prod x (Some y) (length sb) (length sb + length sp) op = Ok z
    /\ shape z = sb ++ interleave sp sq ++ se
    /\ forall b p q r, in_range sb b -> in_range sp p -> in_range sq q -> in_range se r ->
       entry z (b ++ interleave p q ++ r) = op (entry x (b ++ p ++ r)) (entry y (b ++ q ++ r)).
Proof. exact @outer_prod_spec. Qed.
Print Assumptions C71_outer_prod.

Example C71_example :
  (exists y, make_2d (mkT [2; 3; 3; 2; 2] (fun i => i)) 1 None = Ok y
             /\ shape y = [2; 6; 6] /\ entry y [1; 5; 2] = [1; 2; 1; 1; 0])
  /\ (exists y, diagonal_between ex_cov 1 None = Ok y /\ shape y = [2; 3; 5]
             /\ entry y [1; 2; 4] = [1; 2; 4; 2; 4])
  /\ (exists z, outer_prod (mkT [2; 3] (fun i => i))
                  (Some (mkT [4; 3] (fun i => i))) 0 1 pair = Ok z
             /\ shape z = [2; 4; 3] /\ entry z [1; 3; 2] = ([1; 2], [3; 2])).
Proof. repeat split; eexists; repeat split. Qed.
