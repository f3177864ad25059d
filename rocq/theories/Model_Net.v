(** Analytic kernels of networks: what each layer's [kernel_fn] does to the entries of
    the covariances (stax/linear.py, stax/elementwise.py, stax/branching.py), and what
    [serial] / [parallel] do with the layers (stax/combinators.py).

    An entry of a covariance is addressed by its batch indices ([[i]] in a
    [diagonal_batch] layout, [[i;j]] otherwise) and its positions ([[p]] in a
    [diagonal_spatial] layout, [[p;q]] otherwise). How these are laid out in the axes of
    an array ([zip]ped pairs, [is_reversed]) is the subject of Model_Axes, Model_Kernel
    and Model_Conv.

    Simplified: values are reals; masks are left out (Model_Mask); the 0-dimensional
    [ntk] of an input kernel is the constant 0; [FanInConcat] is along the channel axis
    (Model_Branching has the others); [LayerNorm] does not normalise over the batch. *)
From Coq Require Import List Arith Lia Bool Reals.
From Verif Require Import Base Model_Req Model_Geom.
Import ListNotations.
Local Open Scope R_scope.

Definition cov := list nat -> list loc -> R.

Fixpoint lsum {A} (l : list A) (f : A -> R) : R :=
  match l with [] => 0 | a :: l' => f a + lsum l' f end.

(** The part of utils/kernel.py:29-120 [Kernel] that matters here. *)
Record sk := mkSk {
  s_n1 : nat; s_n2 : nat;            (* batch sizes *)
  s_sp : list nat;                   (* spatial shape *)
  s_ch : nat;                        (* channels: [shape1[channel_axis]] *)
  s_cov1 : cov; s_cov2 : option cov; s_nngp : cov; s_ntk : option cov;
  s_db : bool; s_ds : bool;          (* diagonal_batch, diagonal_spatial *)
  s_same : bool;                     (* x1_is_x2 *)
  s_gauss : bool                     (* is_gaussian *)
}.

(** [k.replace(cov1=, nngp=, cov2=, ntk=)] with one function for [cov1]/[cov2] (told which
    of them) and one for [nngp]/[ntk]. *)
Definition replace (k : sk) (sp : list nat) (ch : nat) (c1 : cov) (c2 : option cov)
    (nngp : cov) (ntk : option cov) (ds gauss : bool) : sk :=
  mkSk (s_n1 k) (s_n2 k) sp ch c1 c2 nngp ntk (s_db k) ds (s_same k) gauss.

(** stax/requirements.py:1057-1075 [get_diagonal], entry [(i, p)]. *)
Definition dvar (db ds : bool) (c : cov) (i : nat) (p : loc) : R :=
  c (if db then [i] else [i; i]) (if ds then [p] else [p; p]).

(** ** Affine maps *)

(** stax/linear.py:2938-2972 [_affine] *)
Definition affine (W : R) (b : option R) (x : cov) : cov :=
  fun bi s => x bi s * W ^ 2 + match b with Some b => b ^ 2 | None => 0 end.

(** stax/linear.py:1360-1376 the inner [affine] of [_Conv]: without weight sharing, the
    shift is added on the spatial diagonal only. *)
Definition conv_affine (shared ds : bool) (scale : R) (shift : option R) (x : cov) : cov :=
  fun bi s =>
    x bi s * scale +
    match shift with
    | None => 0
    | Some c =>
        if ds || shared then c
        else match s with [p; q] => if loc_eqb p q then c else 0 | _ => 0 end
    end.

(** ** Windows *)
Definition tap1 (x : list loc -> R) (o : option loc) : R :=
  match o with Some p => x [p] | None => 0 end.
Definition tap2 (x : list loc -> R) (o o' : option loc) : R :=
  match o, o' with Some p, Some q => x [p; q] | _, _ => 0 end.

(** stax/linear.py:3381-3437 [_conv_kernel_diagonal_spatial], 3115-3208
    [_conv_kernel_full_spatial_shared] (each axis contracts with [diag(1/f)]),
    3210-3262 [_conv_kernel_full_spatial_unshared]. *)
Definition conv_unscaled (shared : bool) (g : geom) (sp : list nat) (ds : bool) (x : cov) : cov :=
  fun bi s =>
    match ds, s with
    | true, [p] => lsum (taps g) (fun k => tap1 (x bi) (geom_at g sp p k)) / INR (vol (g_filter g))
    | false, [p; q] =>
        if shared then
          lsum (taps g) (fun k => tap2 (x bi) (geom_at g sp p k) (geom_at g sp q k)) / INR (vol (g_filter g))
        else if loc_eqb p q then
          lsum (taps g) (fun k => tap2 (x bi) (geom_at g sp p k) (geom_at g sp p k)) / INR (vol (g_filter g))
        else 0
    | _, _ => 0
    end.

(** stax/linear.py:3562-3572 [_normalize]: number of elements a window is divided by. *)
Definition win_size (norm_edges : bool) (g : geom) (sp : list nat) (ds : bool) (s : list loc) : R :=
  match g_pad g, norm_edges with
  | SAME, true =>
      match ds, s with
      | true, [p] => lsum (taps g) (fun k => tap1 (fun _ => 1) (geom_at g sp p k))
      | false, [p; q] =>
          lsum (taps g) (fun k => lsum (taps g) (fun l =>
            tap2 (fun _ => 1) (geom_at g sp p k) (geom_at g sp q l)))
      | _, _ => 1
      end
  | _, _ => if ds then INR (vol (g_filter g)) else INR (vol (g_filter g) * vol (g_filter g))
  end.

(** stax/linear.py:1629-1657 [_Pool.kernel_fn.pool] with 3499-3560 [_pool_kernel]; in the
    diagonal layout the window size is divided out twice. *)
Definition pool (avg norm_edges : bool) (g : geom) (sp : list nat) (ds : bool) (x : cov) : cov :=
  fun bi s =>
    let out :=
      match ds, s with
      | true, [p] => lsum (taps g) (fun k => tap1 (x bi) (geom_at g sp p k))
      | false, [p; q] =>
          lsum (taps g) (fun k => lsum (taps g) (fun l =>
            tap2 (x bi) (geom_at g sp p k) (geom_at g sp q l)))
      | _, _ => 0
      end in
    if avg then
      let out := out / win_size norm_edges g sp ds s in
      if ds then out / win_size norm_edges g sp ds s else out
    else out.

(** stax/linear.py:1773-1790 [_GlobalPool.kernel_fn._pool]. *)
Definition gpool (avg : bool) (sp : list nat) (ds : bool) (x : cov) : cov :=
  fun bi _ =>
    if ds then
      let out := lsum (locs sp) (fun p => x bi [p]) in
      if avg then out / INR (vol sp) / INR (vol sp) else out
    else
      let out := lsum (locs sp) (fun p => lsum (locs sp) (fun q => x bi [p; q])) in
      if avg then out / INR (vol sp * vol sp) else out.

(** stax/linear.py:1869-1882 [Flatten.kernel_fn.trace] (the nested traces of the pairs
    of axes are summed over all positions at once here). *)
Definition flatten (sp : list nat) (ds : bool) (x : cov) : cov :=
  fun bi _ =>
    lsum (locs sp) (fun p => x bi (if ds then [p] else [p; p])) / INR (vol sp).

(** ** Pointwise layers *)

(** An activation: the function applied to [nngp], the factor of [ntk], the function
    applied to [cov1]/[cov2], and the one applied to them when only variances are kept
    (stax/elementwise.py: [nngp_ntk_fn], [nngp_fn_diag]; Model_Elementwise instantiates
    them). Arguments: covariance, first and second variance. *)
Record nonlin := mkNl {
  nl_nngp : R -> R -> R -> R;
  nl_ntk : R -> R -> R -> R;
  nl_cov : R -> R -> R -> R;
  nl_diag : R -> R
}.

(** [get_diagonal_outer_prods] (stax/requirements.py:1077-1117) and a function of the
    entry and the two variances it is formed from. *)
Definition with_vars (f : R -> R -> R -> R) (db ds : bool) (va vb : cov) (x : cov) : cov :=
  fun bi s => f (x bi s) (dvar db ds va (hd 0%nat bi) (hd [] s)) (dvar db ds vb (last bi 0%nat) (last s [])).

(** stax/linear.py:2478-2587 [LayerNorm]: variances averaged over the normalised axes. *)
Definition ln_var (eps : R) (over : list bool) (sp : list nat) (db ds : bool) (c : cov) (i : nat) (p : loc) : R :=
  let f := fibre over sp p in
  lsum f (fun q => eps + dvar db ds c i q) / INR (length f).

Definition layer_norm (eps : R) (over : list bool) (sp : list nat) (db ds : bool) (va vb : cov) (x : cov) : cov :=
  fun bi s =>
    x bi s / sqrt (ln_var eps over sp db ds va (hd 0%nat bi) (hd [] s) *
                   ln_var eps over sp db ds vb (last bi 0%nat) (last s [])).

(** stax/linear.py:3575-3630 [_diag_mul]: multiply the entries that are on the diagonal
    of every pair of axes present; nothing if the batch sizes differ. *)
Definition diag_mul (square : bool) (factor : R) (x : cov) : cov :=
  fun bi s =>
    if (match bi with [i; j] => square && (i =? j)%nat | _ => true end)
       && (match s with [p; q] => loc_eqb p q | _ => true end)
    then x bi s * factor else x bi s.

(** ** Layers *)
Inductive layer :=
| LIdent
| LDense (width : nat) (W : R) (b : option R) (std : option R)
| LConv (shared : bool) (g : geom) (width : nat) (W : R) (b : option R) (std : option R)
| LPool (avg norm_edges : bool) (g : geom)
| LGlobalPool (avg : bool)
| LFlatten
| LNonlin (nl : nonlin)
| LNorm (eps : R) (over : list bool)
| LDropout (rate : R).

(** The [@requires(diagonal_spatial=...)] of each layer; [Diagonal()] is [(YES, NO)]. *)
Definition layer_req (l : layer) : option diag :=
  match l with
  | LIdent | LNorm _ _ | LDropout _ => None
  | LDense _ _ _ _ | LNonlin _ => Some (mkD YES NO)
  | LConv shared _ _ _ _ _ => Some (mkD YES (if shared then NO else MAYBE))
  | LPool _ _ _ => Some (mkD MAYBE NO)
  | LGlobalPool _ => Some (mkD MAYBE YES)
  | LFlatten => Some (mkD YES YES)
  end.

(** Shape checks of the XLA primitives. *)
Definition geom_ok (g : geom) (sp : list nat) : bool :=
  ((length (g_filter g) =? length sp) && (length (g_strides g) =? length sp)
   && forallb (fun n => 0 <? n) (g_filter g) && forallb (fun n => 0 <? n) (g_strides g)
   && forallb (fun n => 0 <? n) sp)%nat.

Definition omap (f : cov -> cov) (o : option cov) : option cov := option_map f o.

(** The variances [nngp]'s columns come from. *)
Definition k_cov2 (k : sk) : cov := match s_cov2 k with Some c => c | None => s_cov1 k end.

Definition layer_fn (l : layer) (k : sk) : result sk :=
  let db := s_db k in
  let ds := s_ds k in
  let sp := s_sp k in
  match l with
  | LIdent => Ok k
  | LDense width W b std =>                               (* stax/linear.py:893-922 *)
      let fc := affine W b in
      let nngp := fc (s_nngp k) in
      let ntk :=
        match std with
        | None => omap (fun t bi s => nngp bi s + W ^ 2 * t bi s) (s_ntk k)
        | Some s0 =>
            omap (fun t bi s =>
                    INR (s_ch k) / s0 * s_nngp k bi s + W ^ 2 * t bi s
                    + match b with Some _ => 1 | None => 0 end) (s_ntk k)
        end in
      Ok (replace k sp width (fc (s_cov1 k)) (omap fc (s_cov2 k)) nngp ntk ds true)
  | LConv shared g width W b std =>                       (* stax/linear.py:1321-1414 *)
      if geom_ok g sp then
        let unscaled := conv_unscaled shared g sp ds in
        let b2 := option_map (fun b => b ^ 2) b in
        let conv := fun x => conv_affine shared ds (W ^ 2) b2 (unscaled x) in
        let nngp := conv (s_nngp k) in
        let ntk :=
          match std with
          | None => omap (fun t bi s => W ^ 2 * unscaled t bi s + nngp bi s) (s_ntk k)
          | Some s0 =>
              omap (fun t =>
                let u : cov := fun bi s =>
                  INR (s_ch k * vol (g_filter g)) / s0 * unscaled (s_nngp k) bi s + W ^ 2 * unscaled t bi s in
                match b with Some _ => conv_affine shared ds 1 (Some 1) u | None => u end) (s_ntk k)
          end in
        Ok (replace k (geom_out g sp) width (conv (s_cov1 k)) (omap conv (s_cov2 k)) nngp ntk ds true)
      else Raise ValueError
  | LPool avg ne g =>                                     (* stax/linear.py:1625-1663 *)
      if geom_ok g sp then
        let f := pool avg ne g sp ds in
        Ok (replace k (geom_out g sp) (s_ch k) (f (s_cov1 k)) (omap f (s_cov2 k)) (f (s_nngp k))
              (omap f (s_ntk k)) ds (s_gauss k))
      else Raise ValueError
  | LGlobalPool avg =>                                    (* stax/linear.py:1767-1803 *)
      let f := gpool avg sp ds in
      Ok (replace k [] (s_ch k) (f (s_cov1 k)) (omap f (s_cov2 k)) (f (s_nngp k))
            (omap f (s_ntk k)) ds (s_gauss k))
  | LFlatten =>                                           (* stax/linear.py:1862-1902 *)
      let f := flatten sp ds in
      Ok (replace k [] (s_ch k * vol sp) (f (s_cov1 k)) (omap f (s_cov2 k)) (f (s_nngp k))
            (omap f (s_ntk k)) false false)
  | LNonlin nl =>                                         (* stax/elementwise.py:1250-1276 *)
      if s_gauss k then
        let c1 := s_cov1 k in
        let covf := fun c =>
          if db && ds then (fun bi s => nl_diag nl (c bi s)) : cov
          else with_vars (nl_cov nl) db ds c c c in
        Ok (replace k sp (s_ch k) (covf c1) (omap covf (s_cov2 k))
              (with_vars (nl_nngp nl) db ds c1 (k_cov2 k) (s_nngp k))
              (omap (fun t bi s => t bi s * with_vars (nl_ntk nl) db ds c1 (k_cov2 k) (s_nngp k) bi s) (s_ntk k))
              ds false)
      else Raise ValueError
  | LNorm eps over =>                                     (* stax/linear.py:2510-2585 *)
      if s_gauss k then
        let c1 := s_cov1 k in
        let n12 := layer_norm eps over sp db ds c1 (k_cov2 k) in
        Ok (replace k sp (s_ch k) (layer_norm eps over sp db ds c1 c1 c1)
              (omap (fun c => layer_norm eps over sp db ds c c c) (s_cov2 k))
              (n12 (s_nngp k)) (omap n12 (s_ntk k)) ds true)
      else Raise NotImplementedError
  | LDropout rate =>                                      (* stax/linear.py:2612-2639 *)
      let factor := / rate in
      let f := diag_mul true factor in
      let square := (s_n1 k =? s_n2 k)%nat in
      let f12 := diag_mul square (if s_same k then factor else 1) in
      Ok (replace k sp (s_ch k) (f (s_cov1 k)) (omap f (s_cov2 k)) (f12 (s_nngp k))
            (omap f12 (s_ntk k)) ds false)
  end.

(** ** Fan-in (stax/branching.py) *)
Inductive fan := FanInSum | FanInProd | FanInConcatCh.

Definition shape_eqb (a b : list nat) : bool := if list_eq_dec Nat.eq_dec a b then true else false.

(** 376-412 [_preprocess_kernels_for_fan_in] *)
Definition same_layout (k k0 : sk) : bool := Bool.eqb (s_db k) (s_db k0) && Bool.eqb (s_ds k) (s_ds k0).
Definition same_batch (k k0 : sk) : bool :=
  ((s_n1 k =? s_n1 k0) && (s_n2 k =? s_n2 k0))%nat && shape_eqb (s_sp k) (s_sp k0).

Definition sum_covs (cs : list cov) : cov := fun bi s => lsum cs (fun c => c bi s).
Definition prod_covs (cs : list cov) : cov := fun bi s => fold_right (fun c r => c bi s * r) 1 cs.

(** 158-166 [_mats_prod]: the loop over [zip(nngps, ntks)]. *)
Fixpoint ntk_prod (acc_nngp acc_ntk : R) (l : list (R * R)) : R :=
  match l with
  | [] => acc_ntk
  | (nngp, ntk) :: l' => ntk_prod (acc_nngp * nngp) (acc_ntk * nngp + acc_nngp * ntk) l'
  end.

(** [Some] list if none of them is [None]. *)
Fixpoint all_some {A} (l : list (option A)) : option (list A) :=
  match l with
  | [] => Some []
  | Some a :: l' => option_map (cons a) (all_some l')
  | None :: _ => None
  end.

(** 414-480 [_concat_kernels], [axis == -1]: mean weighted by the channel widths. *)
Definition avg_covs (ws : list nat) (cs : list cov) : cov :=
  let ws := match ws with
            | [] => []
            | w :: _ => if forallb (Nat.eqb w) ws then map (fun _ => 1%nat) ws else ws
            end in
  fun bi s => lsum (combine ws cs) (fun wc => snd wc bi s * INR (fst wc)) / lsum ws INR.

(** [None if mats[0] is None else <combine>(mats)]: combining with a [None] among the
    others is a [TypeError]. *)
Definition mixed {A} (os : list (option A)) : bool :=
  match os with
  | Some _ :: l => existsb (fun o => match o with None => true | _ => false end) l
  | _ => false
  end.

(** The exception raised for these inputs, if any. *)
Definition fan_check (f : fan) (ks : list sk) : option exn :=
  match ks with
  | [] => Some IndexError
  | k0 :: ks' =>
      if negb (forallb (fun k => same_layout k k0) ks') then Some NotImplementedError
      else if negb (forallb (fun k => same_batch k k0) ks') then Some ValueError
      else
        match f with
        | FanInSum =>                                     (* 72-92 *)
            if negb (forallb (fun k => s_ch k =? s_ch k0)%nat ks') then Some ValueError
            else if negb (forallb s_gauss ks) && negb (length ks =? 1)%nat then Some NotImplementedError
            else if mixed (map s_cov2 ks) || mixed (map s_ntk ks) then Some TypeError
            else None
        | FanInProd =>                                    (* 139-143 *)
            if negb (forallb (fun k => s_ch k =? s_ch k0)%nat ks') then Some ValueError else None
        | FanInConcatCh =>                                (* 222-250 *)
            if mixed (map s_cov2 ks) || mixed (map s_ntk ks) then Some TypeError else None
        end
  end.

(** How the covariances of the branches are combined. *)
Definition fan_cov (f : fan) (ws : list nat) (cs : list cov) : cov :=
  match f with
  | FanInSum => sum_covs cs
  | FanInProd => prod_covs cs
  | FanInConcatCh => avg_covs ws cs
  end.

Definition fan_ntk (f : fan) (ws : list nat) (nngps ntks : list cov) : cov :=
  match f with
  | FanInProd =>
      fun bi s => ntk_prod 1 0 (combine (map (fun c : cov => c bi s) nngps) (map (fun c : cov => c bi s) ntks))
  | _ => fan_cov f ws ntks
  end.

(** 92-117 [FanInSum], 145-187 [FanInProd], 250-299 [FanInConcat]. *)
Definition fan_value (f : fan) (k0 : sk) (ks : list sk) : sk :=
  let ws := map s_ch ks in
  replace k0 (s_sp k0)
    (match f with FanInConcatCh => fold_right Nat.add 0%nat ws | _ => s_ch k0 end)
    (fan_cov f ws (map s_cov1 ks))
    (option_map (fan_cov f ws) (all_some (map s_cov2 ks)))
    (fan_cov f ws (map s_nngp ks))
    (option_map (fan_ntk f ws (map s_nngp ks)) (all_some (map s_ntk ks)))
    (s_ds k0)
    (match f with
     | FanInSum => forallb s_gauss ks
     | FanInProd => (length ks =? 1)%nat && s_gauss k0
     | FanInConcatCh => false
     end).

Definition fan_in (f : fan) (ks : list sk) : result sk :=
  match fan_check f ks, ks with
  | Some e, _ => Raise e
  | None, k0 :: _ => Ok (fan_value f k0 ks)
  | None, [] => Raise IndexError
  end.

(** ** Networks: [serial] of networks, and [serial(FanOut, parallel(...), FanIn...)]. *)
Inductive net :=
| Leaf (l : layer)
| Seq (ts : list net)
| Par (f : fan) (ts : list net).

(** stax/combinators.py:211-270 [_get_input_req_attr] for [diagonal_spatial], all values
    being [Diagonal]s: absent requirements are skipped. *)
Definition req_step (op : diag -> diag -> diag) (acc r : option diag) : option diag :=
  match acc, r with
  | None, _ => r
  | _, None => acc
  | Some a, Some b => Some (op a b)
  end.

Fixpoint net_req (t : net) : option diag :=
  match t with
  | Leaf l => layer_req l
  | Seq ts => fold_left (req_step dshift) (map net_req ts) None
  | Par _ ts => fold_left (req_step dand) (map net_req ts) None
  end.

(** stax/requirements.py:101-113: the check of the [requires] decorator. *)
Definition refused (r : option diag) (k : sk) : bool :=
  s_ds k && match r with Some d => tri_eqb (d_in d) NO | None => false end.

Fixpoint eval (t : net) (k : sk) : result sk :=
  if refused (net_req t) k then Raise ValueError
  else
    match t with
    | Leaf l => layer_fn l k
    | Seq ts =>
        (fix go ts k := match ts with [] => Ok k | t :: ts' => bind (eval t k) (go ts') end) ts k
    | Par f ts =>
        bind ((fix go ts := match ts with
                            | [] => Ok []
                            | t :: ts' => bind (eval t k) (fun r => rmap (cons r) (go ts'))
                            end) ts) (fan_in f)
    end.

(** ** Input kernels (stax/requirements.py:641-830 [_inputs_to_kernel]) *)

(** An input array: sample, position, channel. *)
Definition input := nat -> loc -> nat -> R.

(** Channel mean of products, stax/requirements.py:518-640; entry-wise (C25). *)
Definition gram (ch : nat) (x y : input) : cov :=
  fun bi s => lsum (seq 0 ch) (fun c => x (hd 0%nat bi) (hd [] s) c * y (last bi 0%nat) (last s []) c) / INR ch.

(** utils/utils.py:256-287 [x1_is_x2] on arrays of the same shape. *)
Definition close (a b : R) : bool := if Rlt_dec (Rabs (a - b)) (/ 1000000000000) then true else false.
Definition arrays_close (n : nat) (sp : list nat) (ch : nat) (x y : input) : bool :=
  forallb (fun i => forallb (fun p => forallb (fun c => close (x i p c) (y i p c)) (seq 0 ch)) (locs sp)) (seq 0 n).

Definition input_kernel (sp : list nat) (ch : nat) (n1 : nat) (x1 : input) (x2 : option (nat * input))
    (db ds ntk : bool) : sk :=
  let y := match x2 with Some (_, x2) => x2 | None => x1 end in
  let n2 := match x2 with Some (n2, _) => n2 | None => n1 end in
  mkSk n1 n2 sp ch (gram ch x1 x1) (option_map (fun x => gram ch (snd x) (snd x)) x2) (gram ch x1 y)
       (if ntk then Some (fun _ _ => 0) else None) db ds
       (match x2 with Some (n2, x2) => (n1 =? n2)%nat && arrays_close n1 sp ch x1 x2 | None => true end)
       false.
