(** The closed-form dual activations of stax/elementwise.py, one entry at a time.

    Each activation gives the formulas its [kernel_fn] applies to an entry of [nngp], [ntk],
    [cov1]/[cov2], with the variances the [get_diagonal_outer_prods] arrays are formed
    from ([prod] is [v * w], [sum_] is [v + w], ...; [with_vars] of Model_Net).
    Values are reals. *)
From Coq Require Import List Arith Lia Bool Reals.
From Coquelicot Require Import Coquelicot.
From Verif Require Import Base Model_Geom Model_Net.
Import ListNotations.
Local Open Scope R_scope.

(** ** Numerical helpers *)

(** [jnp.arctan2(y, x)] (without signed zeros). *)
Definition arctan2 (y x : R) : R :=
  if Rlt_dec 0 x then atan (y / x)
  else if Rlt_dec x 0 then (if Rle_dec 0 y then atan (y / x) + PI else atan (y / x) - PI)
  else if Rlt_dec 0 y then PI / 2 else if Rlt_dec y 0 then - (PI / 2) else 0.

(** 1279-1282 [_sqrt(x, tol)] *)
Definition sqrt_tol (tol x : R) : R := sqrt (Rmax x tol).
(** 1294-1301 [_arctan2(x, y, fill_zero)] *)
Definition arctan2_fill (fill y x : R) : R :=
  if Req_EM_T y 0 then (if Req_EM_T x 0 then fill else arctan2 y x) else arctan2 y x.
(** [jnp.clip(x, -1, 1)] *)
Definition clip1 (x : R) : R := Rmin (Rmax x (-1)) 1.

(** 1384-1385 [_double_factorial(n)] at [n = 2 d - 1]: product of [range(n, 0, -2)]. *)
Fixpoint odd_factorial (d : nat) : nat :=
  match d with O => 1 | S d' => (2 * d' + 1) * odd_factorial d' end.

(** ** Affine maps around an activation *)

(** [k *= b] before (utils/kernel.py:306-321 [Kernel.__mul__]): every array scaled by [b**2]. *)
Definition on_scaled (b : R) (nl : nonlin) : nonlin :=
  mkNl (fun n v w => nl_nngp nl (b ^ 2 * n) (b ^ 2 * v) (b ^ 2 * w))
       (fun n v w => b ^ 2 * nl_ntk nl (b ^ 2 * n) (b ^ 2 * v) (b ^ 2 * w))
       (fun n v w => nl_cov nl (b ^ 2 * n) (b ^ 2 * v) (b ^ 2 * w))
       (fun v => nl_diag nl (b ^ 2 * v)).

(** [a * k + c] after (utils/kernel.py:290-321): covariances scaled by [a**2] and shifted
    by [c**2], [ntk] scaled by [a**2]. *)
Definition affine_out (a c : R) (nl : nonlin) : nonlin :=
  mkNl (fun n v w => a ^ 2 * nl_nngp nl n v w + c ^ 2)
       (fun n v w => a ^ 2 * nl_ntk nl n v w)
       (fun n v w => a ^ 2 * nl_cov nl n v w + c ^ 2)
       (fun v => a ^ 2 * nl_diag nl v + c ^ 2).

(** An activation whose formula for [cov1] is the one for [nngp]. *)
Definition uniform_nl (nngp ntk : R -> R -> R -> R) (diag : R -> R) : nonlin := mkNl nngp ntk nngp diag.

(** ** 49-118 [Erf] *)
Definition erf_core : nonlin :=
  uniform_nl
    (fun n v w => let prod := (1 + 2 * v) * (1 + 2 * w) in
                  2 / PI * arctan2 (2 * n) (sqrt_tol 0 (prod - 4 * n ^ 2)))
    (fun n v w => let prod := (1 + 2 * v) * (1 + 2 * w) in
                  2 * (2 / PI) / sqrt_tol 0 (prod - 4 * n ^ 2))
    (fun v => 2 / PI * arctan2 v (sqrt (v + 1 / 4))).
Definition Erf (a b c : R) : nonlin := affine_out a c (on_scaled b erf_core).

(** 121-132 [Sigmoid_like] *)
Definition Sigmoid_like : nonlin := Erf (5 / 10) (1 / (24020563531719796 / 10000000000000000)) (5 / 10).

(** ** 135-193 [Gabor] *)
Definition Gabor : nonlin :=
  uniform_nl
    (fun n v w =>
       let prod := v * w in let sum_ := v + w in
       let diff := 4 * (prod - n ^ 2) in
       let denom := 2 * sum_ + diff + 1 in
       let num := sum_ + diff + 2 * n in
       exp (- num / (2 * denom)) * (exp (2 * n / denom) - 1) / (2 * sqrt_tol 0 denom))
    (fun n v w =>
       let prod := v * w in let sum_ := v + w in
       let diff := 4 * (prod - n ^ 2) in
       let denom := 2 * sum_ + diff + 1 in
       let num := sum_ + diff + 2 * n in
       let shared_term := 1 + 2 * sum_ + 4 * (n ^ 2 + prod) in
       let diff_term := 4 * n * (diff + 3 * sum_ + 2) in
       (* [denom**(5/2)] is the product of a square and a square root *)
       exp (- num / (2 * denom)) * ((shared_term - diff_term) + exp (2 * n / denom) * (shared_term + diff_term))
       / (denom ^ 2 * sqrt denom) / 2)
    (fun v => let denom := 1 + 4 * v in (1 - exp (- 2 * v / denom)) / (2 * sqrt_tol 0 denom)).

(** ** 196-272 [Gelu] *)
Definition Gelu : nonlin :=
  uniform_nl
    (fun n v w =>
       let prod := v * w in let prod_plus_1 := (v + 1) * (w + 1) in
       let delta_squared := prod_plus_1 - n ^ 2 in
       let delta := sqrt_tol 0 delta_squared in
       let angles := arctan2 n delta in
       ((n ^ 2 + prod * delta_squared) / (prod_plus_1 * delta) + n * angles) / (2 * PI) + 1 / 4 * n)
    (fun n v w =>
       let prod := v * w in let prod_plus_1 := (v + 1) * (w + 1) in
       let delta_squared := prod_plus_1 - n ^ 2 in
       let delta := sqrt_tol 0 delta_squared in
       let angles := arctan2 n delta in
       (1 / delta_squared + (1 - prod) / prod_plus_1 + 1) * (n / delta / (2 * PI))
       + (1 / 4 + angles / (2 * PI)))
    (fun v => ((v / ((v + 1) * sqrt (1 + 2 * v)) + arctan2 v (sqrt (1 + 2 * v)) / 2) / PI + 1 / 4) * v).

(** ** 275-346 [Sin], [Cos] *)
Definition Sin (a b c : R) : nonlin :=
  let half_a_square := a ^ 2 / 2 in
  uniform_nl
    (fun n v w =>
       let s1 := exp (b ^ 2 * (- (1 / 2) * (v + w) + n)) in
       let s2 := exp (b ^ 2 * (- (1 / 2) * (v + w) - n)) * cos (2 * c) in
       half_a_square * (s1 - s2))
    (fun n v w =>
       let s1 := exp (b ^ 2 * (- (1 / 2) * (v + w) + n)) in
       let s2 := exp (b ^ 2 * (- (1 / 2) * (v + w) - n)) * cos (2 * c) in
       half_a_square * b ^ 2 * (s1 + s2))
    (fun v => half_a_square * (1 - exp (- 2 * b ^ 2 * v) * cos (2 * c))).
Definition Cos (a b c : R) : nonlin := Sin a b (c + PI / 2).

(** ** 349-400 [Rbf] *)
Definition Rbf (gamma : R) : nonlin :=
  uniform_nl (fun n v w => exp (gamma * (- (v + w) + 2 * n)))
             (fun n v w => 2 * gamma * exp (gamma * (- (v + w) + 2 * n)))
             (fun _ => 1).

(** ** 403-478 [ABRelu] (without [do_stabilize], see [stabilized]), 481-515 *)
Definition abrelu_angle (n prod : R) : R := arctan2_fill (PI / 2) (sqrt_tol 0 (prod - n ^ 2)) n.
Definition abrelu_dot (a b n prod : R) : R :=
  (a ^ 2 + b ^ 2) / 2 - (a - b) ^ 2 / (2 * PI) * abrelu_angle n prod.
Definition ABRelu (a b : R) : nonlin :=
  uniform_nl
    (fun n v w => let prod := v * w in
                  (a - b) ^ 2 / (2 * PI) * sqrt_tol 0 (prod - n ^ 2) + abrelu_dot a b n prod * n)
    (fun n v w => abrelu_dot a b n (v * w))
    (fun v => (a ^ 2 + b ^ 2) / 2 * v).
Definition Relu : nonlin := ABRelu 0 1.
Definition LeakyRelu (alpha : R) : nonlin := ABRelu alpha 1.
Definition Abs : nonlin := ABRelu (-1) 1.

(** 430-435, 470-474 [do_stabilize]: everything but [ntk] divided by a positive factor
    before and multiplied by it after. *)
Definition stabilized (factor : R) (nl : nonlin) : nonlin :=
  mkNl (fun n v w => nl_nngp nl (n / factor) (v / factor) (w / factor) * factor)
       (fun n v w => nl_ntk nl (n / factor) (v / factor) (w / factor))
       (fun n v w => nl_cov nl (n / factor) (v / factor) (w / factor) * factor)
       (fun v => nl_diag nl (v / factor) * factor).

(** ** 518-545 [Sign]: [cov1] is set to 1 wherever it is not 0. *)
Definition sign_cov (x : R) : R := if Req_EM_T x 0 then 0 else 1.
Definition Sign : nonlin :=
  mkNl (fun n v w => 1 - abrelu_angle n (v * w) * 2 / PI)
       (fun _ _ _ => 0)
       (fun n _ _ => sign_cov n)
       sign_cov.

(** ** 548-590 [Exp] *)
Definition exp_core (b : R) : nonlin :=
  uniform_nl (fun n v w => exp (b ^ 2 * ((v + w) / 2 + n)))
             (fun n v w => b ^ 2 * exp (b ^ 2 * ((v + w) / 2 + n)))
             (fun v => exp (2 * b ^ 2 * v)).
Definition Exp (a b : R) : nonlin := affine_out a 0 (exp_core b).

(** ** 592-646 [Gaussian] *)
Definition gaussian_core (b : R) : nonlin :=
  let factor := 4 * b ^ 2 in
  uniform_nl
    (fun n v w => let prod := (1 - 2 * b * v) * (1 - 2 * b * w) in 1 / sqrt_tol 0 (prod - factor * n ^ 2))
    (fun n v w => let prod := (1 - 2 * b * v) * (1 - 2 * b * w) in
                  factor * n / sqrt_tol 0 (prod - factor * n ^ 2) ^ 3)
    (fun v => 1 / sqrt_tol 0 (1 - 4 * b * v)).
Definition Gaussian (a b : R) : nonlin := affine_out a 0 (gaussian_core b).

(** ** 649-702 [ExpNormalized] *)
Definition en_tol : R := / 10 ^ 30.
Definition ExpNormalized (gamma shift : R) (do_clip : bool) : nonlin :=
  let exp_of := fun cov prod =>
    let c := cov / prod in exp (gamma * ((if do_clip then clip1 c else c) + shift)) in
  let nngp := fun n v w => let prod := sqrt_tol en_tol (v * w) in prod * exp_of n prod in
  uniform_nl nngp
    (fun n v w => let prod := sqrt_tol en_tol (v * w) in gamma * exp_of n prod)
    (fun v => nngp v v v).

(** ** 705-750 [Hermite] *)
Definition Hermite (degree : nat) : nonlin :=
  uniform_nl (fun n _ _ => n ^ degree)
             (fun n _ _ => match degree with O => 0 | S d => INR degree * n ^ d end)
             (fun v => v ^ degree).

(** ** 753-836 [Monomial] *)
Definition monomial_nngp (n prod : R) (degree : nat) : R :=
  match degree with
  | 0%nat => 1
  | 1%nat => n
  | 2%nat => 2 * n ^ 2 + prod
  | 3%nat => 6 * n ^ 3 + 9 * n * prod
  | 4%nat => 3 * (8 * n ^ 4 + 3 * prod * (8 * n ^ 2 + prod))
  | _ => 15 * n * (8 * n ^ 4 + 5 * prod * (8 * n ^ 2 + 3 * prod))
  end.
(** 767-769: other degrees are refused. *)
Definition Monomial (degree : nat) : result nonlin :=
  if (degree <=? 5)%nat then
    Ok (uniform_nl (fun n v w => monomial_nngp n (v * w) degree)
          (fun n v w => INR degree ^ 2 * match degree with O => 0 | S d => monomial_nngp n (v * w) d end)
          (fun v => INR (odd_factorial degree) * v ^ degree))
  else Raise NotImplementedError.

(** ** 1022-1120 [Elementwise] with the user's [nngp_fn], [d_nngp_fn]. *)
Definition Elementwise (nngp_fn d_nngp_fn : R -> R -> R -> R) : nonlin :=
  uniform_nl nngp_fn d_nngp_fn (fun v => nngp_fn v v v).

(** ** 1123-1247 [ElementwiseNumerical]: [nodes] are [roots_hermite(deg)] (points and
    weights). [nngp**2/q11] is NaN when [q11] is 0. *)
Definition integrate (nodes : list (R * R)) (f : R -> R) (n q11 q22 : R) : R :=
  lsum nodes (fun xw => lsum nodes (fun yw =>
    snd xw * snd yw *
    (f (sqrt_tol 0 (2 * q11) * fst xw) *
     f (n / sqrt_tol (/ 10 ^ 30) (q11 / 2) * fst xw + sqrt_tol 0 (2 * (q22 - n ^ 2 / q11)) * fst yw)))) / PI.
Definition integrate_diag (nodes : list (R * R)) (f : R -> R) (q : R) : R :=
  lsum nodes (fun xw => snd xw * f (sqrt_tol 0 (2 * q) * fst xw) ^ 2) / sqrt PI.
Definition ElementwiseNumerical (nodes : list (R * R)) (fn df : R -> R) : nonlin :=
  uniform_nl (integrate nodes fn) (integrate nodes df) (integrate_diag nodes fn).

(** ** Formulas that may be undefined: [None] is NaN (from a division by 0). *)
Definition fdiv (x y : R) : option R := if Req_EM_T y 0 then None else Some (x / y).

(** 1380-1381 [_factorial] is [fact]. *)

(** 923-1019 [Polynomial]; [r n l] is 948-958, [coef[2i+l]] for [2 i + l < degree]. *)
Definition poly_r (coef : list R) (n : R) (l : nat) : R :=
  lsum (seq 0 (length coef)) (fun m =>
    if ((l <=? m) && Nat.even (m - l))%nat then
      let i := ((m - l) / 2)%nat in
      nth m coef 0 * INR (fact m) / (2 ^ i * INR (fact i) * sqrt (INR (fact l))) * sqrt n ^ m
    else 0).
Definition poly_nngp (coef : list R) (n v w : R) : option R :=
  match fdiv n (sqrt_tol 0 (v * w)) with
  | None =>
      (* NaN to the power 0 is 1; any other power is NaN *)
      if (length coef <=? 1)%nat then
        Some (lsum (seq 0 (length coef)) (fun l => poly_r coef v l * poly_r coef w l))
      else None
  | Some ratio =>
      Some (lsum (seq 0 (length coef)) (fun l => poly_r coef v l * poly_r coef w l * ratio ^ l))
  end.
Definition poly_ntk (coef : list R) (n v w : R) : option R :=
  match fdiv n (sqrt_tol 0 (v * w)) with
  | None => None
  | Some ratio =>
      fdiv (lsum (seq 1 (length coef - 1)) (fun l => INR l * (poly_r coef v l * poly_r coef w l) * ratio ^ (l - 1)))
           (sqrt_tol 0 (v * w))
  end.
Definition poly_diag (coef : list R) (v : R) : R :=
  lsum (seq 0 (length coef)) (fun l => poly_r coef v l * poly_r coef v l).

(** 838-920 [RectifiedMonomial]; [grad] is the derivative. *)
Fixpoint rect_f (k : nat) : R -> R :=
  match k with
  | O => fun theta => (PI - theta) / sin theta
  | S k => fun theta => Derive (rect_f k) theta / sin theta
  end.
Definition rect_j (degree : nat) (n sqrt_prod : R) : option R :=
  match fdiv n sqrt_prod with
  | None => None
  | Some ratio =>
      let theta := acos ratio in
      if Req_EM_T (sin theta) 0 then None
      else Some ((-1) ^ degree * sin theta ^ (2 * degree + 1) * rect_f degree theta)
  end.
Definition rect_nngp (degree : nat) (n v w : R) : option R :=
  let sqrt_prod := sqrt_tol 0 (v * w) in
  option_map (fun j => sqrt_prod ^ degree / (2 * PI) * j) (rect_j degree n sqrt_prod).
Definition rect_ntk (degree : nat) (n v w : R) : option R :=
  let sqrt_prod := sqrt_tol 0 (v * w) in
  match degree with
  | O => Some 0
  | _ =>
      option_map (fun _ =>
        sqrt_prod ^ degree / (2 * PI) *
        Derive (fun x => match rect_j degree x sqrt_prod with Some j => j | None => 0 end) n)
        (rect_j degree n sqrt_prod)
  end.
Definition rect_diag (degree : nat) (v : R) : R := INR (odd_factorial degree) * v ^ degree / 2.
