(** Properties of [linearize] and [taylor_expand] (C53, C54). *)
From Coq Require Import Reals List Lra Lia.
From Coquelicot Require Import Coquelicot.
From Verif Require Import Base Model_Predict Model_Taylor Spec_Taylor Proof_Taylor.
Local Open Scope R_scope.

(** The linearised function has the value of the function at the expansion point. *)
Theorem C53_value {O} (f : vec -> O -> R) params o : linearize f params params o = f params o.
Proof. exact (linearize_point f params o). Qed.
Print Assumptions C53_value.

(** It is affine in the parameters, with the gradient of the function as slope. *)
Theorem C53_affine {O} (f : vec -> O -> R) params n c o :
  has_gradient n (fun q => f q o) params c ->
  forall p, linearize f params p o = f params o + msum n (fun i => c i * (p i - params i)).
Proof. intros H p. exact (linearize_affine f params p n c o H). Qed.
Print Assumptions C53_affine.

Theorem C53_derivative {O} (f : vec -> O -> R) params n c o :
  has_gradient n (fun q => f q o) params c ->
  has_gradient n (fun p => linearize f params p o) params c.
Proof. exact (linearize_gradient f params n c o). Qed.
Print Assumptions C53_derivative.

(** It is the function itself when that is affine. *)
Theorem C53_exact {O} (f : vec -> O -> R) params p n o :
  affine n (fun q => f q o) -> linearize f params p o = f p o.
Proof. exact (linearize_exact f params p n o). Qed.
Print Assumptions C53_exact.

Example C53_example : let f := fun (p : vec) (o : bool) => if o then 2 + 3 * p 0%nat - p 1%nat else 7 in
  (forall o, affine 2 (fun q => f q o)) /\ (forall o x, exists c, has_gradient 2 (fun q => f q o) x c).
Proof.
  intros f. assert (forall o, affine 2 (fun q => f q o)) as H.
  { intros [|]; unfold f, affine.
    - exists 2, (fun i => match i with 0%nat => 3 | _ => -1 end). intros p; unfold msum; simpl; ring.
    - exists 7, (fun _ => 0). intros p; unfold msum; simpl; ring. }
  split; auto. intros o x. destruct (H o) as (b & a & E). exists a. apply affine_gradient with b; auto.
Qed.

(** A polynomial of degree at most [d] in the parameters is reproduced at every point. *)
Theorem C54_exact {O} limit (f : vec -> O -> R) params p d : (d < limit)%nat ->
  (forall o, polynomial d (fun q => f q o)) ->
  exists t, taylor_expand limit f params (INR d) p = Ok t /\ forall o, t o = f p o.
Proof. exact (expand_exact limit f params p d). Qed.
Print Assumptions C54_exact.

(** For any function the expansion is the Taylor sum along the segment. *)
Theorem C54_sum {O} limit (f : vec -> O -> R) params p d : (d < limit)%nat ->
  exists t, taylor_expand limit f params (INR d) p = Ok t /\
    forall o, t o = sum_f_R0 (fun k => Derive_n (segment f params p o) k 0 / INR (fact k)) d.
Proof. exact (expand_sum limit f params p d). Qed.
Print Assumptions C54_sum.

(** For smooth functions the error is Lagrange's remainder. *)
Theorem C54_remainder {O} limit (f : vec -> O -> R) params p d o : (d < limit)%nat ->
  (forall k s, (k <= S d)%nat -> 0 <= s <= 1 -> ex_derive_n (segment f params p o) k s) ->
  exists t z, taylor_expand limit f params (INR d) p = Ok t /\ 0 < z < 1 /\
    f p o - t o = Derive_n (segment f params p o) (S d) z / INR (fact (S d)).
Proof. exact (expand_remainder limit f params p d o). Qed.
Print Assumptions C54_remainder.

(** Degree 1 is [linearize], degree 0 the constant. *)
Theorem C54_one {O} limit (f : vec -> O -> R) params p : (1 < limit)%nat ->
  exists t, taylor_expand limit f params 1 p = Ok t /\ forall o, t o = linearize f params p o.
Proof. exact (expand_one limit f params p). Qed.
Print Assumptions C54_one.

Theorem C54_zero {O} limit (f : vec -> O -> R) params p : (0 < limit)%nat ->
  taylor_expand limit f params 0 p = Ok (f params).
Proof. exact (expand_zero limit f params p). Qed.
Print Assumptions C54_zero.

(** A degree that is not a natural number never returns: the recursion limit is
    exceeded, whatever it is. *)
Theorem C54_refused {O} limit (f : vec -> O -> R) params degree p :
  (forall d : nat, degree <> INR d) ->
  taylor_expand limit f params degree p = Raise RecursionError.
Proof. exact (expand_refused limit f params degree p). Qed.
Print Assumptions C54_refused.

Example C54_example :
  polynomial 3 (fun p : vec => p 0%nat * (p 1%nat * p 0%nat) + 2)
  /\ (forall d : nat, -1 <> INR d) /\ (forall d : nat, 1 / 2 <> INR d).
Proof.
  split; [|split].
  - apply p_add.
    + apply (p_mul 1 2); [apply p_var|]. apply (p_mul 1 1); apply p_var.
    + apply (p_le 0); [lia|apply p_const].
  - intros d H. pose proof (pos_INR d); lra.
  - intros [|d] H; [simpl in H; lra|]. rewrite S_INR in H. pose proof (pos_INR d); lra.
Qed.
