(** Property theorems C09 - C16: batching. *)
From Coq Require Import List Arith Lia Bool String.
From Verif Require Import Base Tensor Reshape Model_Kernel Model_Batching Spec_Batching
  Proof_Batching Proof_Batching2 Model_JitCache Proof_JitCache Example_Batching.
Import ListNotations.
Local Open Scope nat_scope.
Local Open Scope list_scope.

(** * C09: the plan *)

(** An accepted plan tiles both data sets, or it is the all-zero plan, which only
    happens with more devices than [gcd n1 n2] ... *)
Theorem C09_plan_tiles : forall n1 n2 bs dc B1 b1 B2 b2,
  0 < bs -> 0 < dc -> get_n_batches_and_batch_sizes n1 n2 bs dc = Ok (B1, b1, B2, b2) ->
  (0 < b2 /\ B1 * b1 = n1 /\ B2 * b2 = n2 /\ b2 <= bs /\ b1 = dc * b2 /\ dc * b2 <= Nat.gcd n1 n2)
  \/ (Nat.gcd n1 n2 < dc /\ B1 = 0 /\ b1 = 0 /\ B2 = 0 /\ b2 = 0).
Proof. exact plan_spec. Qed.
Print Assumptions C09_plan_tiles.
Example C09_plan_ex : get_n_batches_and_batch_sizes 12 18 2 3 = Ok (2, 6, 9, 2).
Proof. reflexivity. Qed.

(** ... and is refused (when reshaping the data) before any kernel is computed:
    the outcome does not depend on the kernel function. *)
Theorem C09_zero_plan_refused : forall A O (ops : outops O) (F : kernel_fn_t A O) bs dc n1 s x1 x2 kw,
  shape x1 = n1 :: s -> 0 < size (shape x1) -> 0 < bs ->
  Nat.gcd n1 (hd 0 (shape (match x2 with None => x1 | Some x2 => x2 end))) < dc ->
  serial_fn_x1 ops F bs dc x1 x2 kw = Raise TypeError.
Proof. exact @zero_plan_refused. Qed.
Print Assumptions C09_zero_plan_refused.
Example C09_zero_ex : shape (vec [1; 2; 3]) = 3 :: [] /\ 0 < size (shape (vec [1; 2; 3])) /\ Nat.gcd 3 3 < 4.
Proof. repeat split; simpl; lia. Qed.

(** Acceptance is divisibility. *)
Theorem C09_plan_acceptance : forall n1 n2 bs dc,
  0 < bs -> 0 < dc -> dc <= Nat.gcd n1 n2 ->
  let b2 := Nat.min bs (Nat.gcd n1 n2 / dc) in
  ((exists p, get_n_batches_and_batch_sizes n1 n2 bs dc = Ok p)
   <-> (Nat.divide (b2 * dc) n1 /\ Nat.divide b2 n2)).
Proof. exact plan_complete. Qed.
Print Assumptions C09_plan_acceptance.
Example C09_acceptance_ex : get_n_batches_and_batch_sizes 12 12 5 1 = Raise ValueError /\ 1 <= Nat.gcd 12 12.
Proof. split; [reflexivity|simpl; lia]. Qed.

Theorem C09_single_device_accepts : forall n1 n2 bs,
  0 < n1 -> 0 < n2 -> Nat.gcd n1 n2 <= bs ->
  get_n_batches_and_batch_sizes n1 n2 bs 1
  = Ok (n1 / Nat.gcd n1 n2, Nat.gcd n1 n2, n2 / Nat.gcd n1 n2, Nat.gcd n1 n2).
Proof. exact plan_single_device. Qed.
Print Assumptions C09_single_device_accepts.
Example C09_single_ex : 0 < 12 /\ Nat.gcd 12 18 <= 7.
Proof. simpl; lia. Qed.

(** * C10: arrays *)

Theorem C10_serial_equals_unbatched : forall A R g o (F : kernel_fn_t A (tensor R)) bs dc n1 n2 x1 x2 kw B1 b1 B2 b2,
  pairwise_array g o F -> call g n1 n2 x1 (match x2 with Some x => x | None => x1 end) kw ->
  0 < n1 -> 0 < n2 -> 0 < bs -> 0 < dc ->
  get_n_batches_and_batch_sizes n1 n2 bs dc = Ok (B1, b1, B2, b2) -> 0 < b2 ->
  exists t u, serial_fn_x1 array_ops F bs dc x1 x2 kw = Ok t
    /\ F x1 (Some (match x2 with Some x => x | None => x1 end)) kw = Ok u /\ teq t u.
Proof. exact @serial_array. Qed.
Print Assumptions C10_serial_equals_unbatched.
Example C10_ex : pairwise_array ex_sig [] ex_array
  /\ call ex_sig 4 6 (vec [1; 2; 3; 4]) (vec [5; 6; 7; 8; 9; 1]) []
  /\ get_n_batches_and_batch_sizes 4 6 2 1 = Ok (2, 2, 3, 2)
  /\ rmap (fun t => map (fun i => map (fun j => entry t [i; j]) (seq 0 6)) (seq 0 4))
       (serial_fn_x1 array_ops ex_array 2 1 (vec [1; 2; 3; 4]) (Some (vec [5; 6; 7; 8; 9; 1])) [])
     = Ok [[5; 6; 7; 8; 9; 1]; [10; 12; 14; 16; 18; 2]; [15; 18; 21; 24; 27; 3]; [20; 24; 28; 32; 36; 4]].
Proof. split; [exact ex_array_pairwise|]. split; [apply vec_call|]. split; vm_compute; reflexivity. Qed.

(** * C11: [Kernel]s *)

Theorem C11_serial_kernel_fields : forall A R neg g d (F : kernel_fn_t A (kernel R)) bs dc n1 n2 x1 x2 kw B1 b1 B2 b2,
  pairwise_kernel g d F -> call g n1 n2 x1 (match x2 with Some x => x | None => x1 end) kw ->
  0 < n1 -> 0 < n2 -> 0 < bs -> 0 < dc ->
  get_n_batches_and_batch_sizes n1 n2 bs dc = Ok (B1, b1, B2, b2) -> 0 < b2 ->
  x2 = None \/ d_mask2 d = None ->
  exists t u, serial_fn_x1 (kernel_ops neg) F bs dc x1 x2 kw = Ok t
    /\ F x1 (Some (match x2 with Some x => x | None => x1 end)) kw = Ok u
    /\ kernel_eq_but t u
    /\ (x2 = None -> k_cov2 t = None) /\ (x2 <> None -> oteq (k_cov2 t) (k_cov2 u))
    /\ k_mask2 t = None
    /\ shape (k_x1_is_x2 t) = []
    /\ exists y1 y2 kw' k, call g b1 b2 y1 y2 kw'
       /\ (forall a, a < b1 -> same1 g y1 kw' a x1 kw a)
       /\ (forall c, c < b2 -> same2 g y2 kw' c (match x2 with Some x => x | None => x1 end) kw c)
       /\ F y1 (Some y2) kw' = Ok k /\ entry (k_x1_is_x2 t) [] = entry (k_x1_is_x2 k) [].
Proof. exact @serial_kernel. Qed.
Print Assumptions C11_serial_kernel_fields.
Example C11_ex : pairwise_kernel ex_sig (ex_ksig false) (ex_kernel false)
  /\ call ex_sig 4 2 (vec [1; 2; 3; 4]) (vec [5; 6]) []
  /\ get_n_batches_and_batch_sizes 4 2 1 1 = Ok (4, 1, 2, 1) /\ d_mask2 (ex_ksig false) = None
  /\ rmap (fun k => (map (fun i => entry (k_cov1 k) [i]) (seq 0 4), k_shape1 k, k_shape2 k))
       (serial_fn_x1 (kernel_ops jax_neg) (ex_kernel false) 1 1 (vec [1; 2; 3; 4]) (Some (vec [5; 6])) [])
     = Ok ([1; 4; 9; 16], [4; 1], [2; 1]).
Proof. split; [apply ex_kernel_pairwise|]. split; [apply (vec_call [1; 2; 3; 4] [5; 6])|]. repeat split; vm_compute; reflexivity. Qed.

(** * C12: the mask of [x2] *)

(** Refuted: with a mask of [x2] every accepted batched call fails, because line
    232 negates a boolean array. *)
Theorem C12_mask2_refuted : forall A R g d (F : kernel_fn_t A (kernel R)) bs dc n1 n2 x1 x2 kw B1 b1 B2 b2,
  pairwise_kernel g d F -> call g n1 n2 x1 x2 kw ->
  0 < n1 -> 0 < n2 -> 0 < bs -> 0 < dc ->
  get_n_batches_and_batch_sizes n1 n2 bs dc = Ok (B1, b1, B2, b2) -> 0 < b2 ->
  d_mask2 d <> None ->
  serial_fn_x1 (kernel_ops jax_neg) F bs dc x1 (Some x2) kw = Raise TypeError.
Proof. exact @serial_kernel_mask2. Qed.
Print Assumptions C12_mask2_refuted.
Example C12_ex : pairwise_kernel ex_sig (ex_ksig true) (ex_kernel true)
  /\ call ex_sig 2 2 (vec [1; 0]) (vec [0; 6]) []
  /\ get_n_batches_and_batch_sizes 2 2 1 1 = Ok (2, 1, 2, 1) /\ d_mask2 (ex_ksig true) <> None
  /\ is_ok (ex_kernel true (vec [1; 0]) (Some (vec [0; 6])) []) = true
  /\ serial_fn_x1 (kernel_ops jax_neg) (ex_kernel true) 1 1 (vec [1; 0]) (Some (vec [0; 6])) [] = Raise TypeError.
Proof.
  split; [apply ex_kernel_pairwise|]. split; [apply (vec_call [1; 0] [0; 6])|].
  split; [reflexivity|]. split; [discriminate|]. split; vm_compute; reflexivity.
Qed.

(** If negation did what was meant for a mask that is stored complemented, the
    result would still differ: the mask comes out complemented. *)
Theorem C12_mask2_logical_negation_refuted :
  let neg m := Ok (mkT (shape m) (fun i => negb (entry m i))) in
  let x1 := vec [1; 0] in
  let x2 := Some (vec [0; 6]) in
  let mask2 k := map (fun i => oentry (k_mask2 k) [i]) [0; 1] in
  rmap mask2 (serial_fn_x1 (kernel_ops neg) (ex_kernel true) 1 1 x1 x2 []) = Ok [Some false; Some true]
  /\ rmap mask2 (ex_kernel true x1 x2 []) = Ok [Some true; Some false].
Proof. split; vm_compute; reflexivity. Qed.
Print Assumptions C12_mask2_logical_negation_refuted.

(** * C13: [x1_is_x2] *)

(** The flag of the batched kernel compares the first block of each input only. *)
Theorem C13_flag_of_first_block : forall A R neg g d (F : kernel_fn_t A (kernel R)) bs n1 n2 x1 x2 kw B1 b1 B2 b2 t u,
  pairwise_kernel g d F -> flag_right g F ->
  call g n1 n2 x1 (match x2 with Some x => x | None => x1 end) kw ->
  0 < n1 -> 0 < n2 -> 0 < bs ->
  get_n_batches_and_batch_sizes n1 n2 bs 1 = Ok (B1, b1, B2, b2) -> 0 < b2 ->
  x2 = None \/ d_mask2 d = None ->
  serial_fn_x1 (kernel_ops neg) F bs 1 x1 x2 kw = Ok t ->
  F x1 (Some (match x2 with Some x => x | None => x1 end)) kw = Ok u ->
  (entry (k_x1_is_x2 t) [] = true
   <-> forall i, i < b2 -> same_sample (g_s g) x1 i (match x2 with Some x => x | None => x1 end) i)
  /\ (entry (k_x1_is_x2 u) [] = true -> entry (k_x1_is_x2 t) [] = true).
Proof. exact @serial_flag. Qed.
Print Assumptions C13_flag_of_first_block.
Example C13_flag_ex : pairwise_kernel ex_sig (ex_ksig false) (ex_kernel false)
  /\ flag_right ex_sig (ex_kernel false) /\ call ex_sig 2 2 (vec [1; 2]) (vec [1; 2]) []
  /\ get_n_batches_and_batch_sizes 2 2 1 1 = Ok (2, 1, 2, 1).
Proof.
  split; [apply ex_kernel_pairwise|]. split; [exact (ex_flag_right false)|].
  split; [apply (vec_call [1; 2] [1; 2])|reflexivity].
Qed.

(** Refuted: data sets that share only their first block are reported equal. *)
Theorem C13_flag_refuted :
  let flag k := entry (k_x1_is_x2 k) [] in
  let x1 := vec [1; 2] in
  let x2 := Some (vec [1; 3]) in
  rmap flag (serial_fn_x1 (kernel_ops jax_neg) (ex_kernel false) 1 1 x1 x2 []) = Ok true
  /\ rmap flag (ex_kernel false x1 x2 []) = Ok false.
Proof. split; vm_compute; reflexivity. Qed.
Print Assumptions C13_flag_refuted.

(** * C14: devices *)

Theorem C14_parallel_array : forall A R g o (F : kernel_fn_t A (tensor R)) dc n1 n2 x1 x2 kw,
  pairwise_array g o F -> call g n1 n2 x1 (match x2 with Some x => x | None => x1 end) kw ->
  0 < n1 -> 0 < dc -> n1 < dc \/ Nat.divide dc n1 ->
  exists t u, parallel_fn_x1 array_ops F dc x1 x2 kw = Ok t
    /\ F x1 (Some (match x2 with Some x => x | None => x1 end)) kw = Ok u /\ teq t u.
Proof. exact @parallel_array. Qed.
Print Assumptions C14_parallel_array.
Example C14_parallel_ex : pairwise_array ex_sig [] ex_array
  /\ call ex_sig 4 2 (vec [1; 2; 3; 4]) (vec [5; 6]) [] /\ Nat.divide 2 4.
Proof. split; [exact ex_array_pairwise|]. split; [apply (vec_call [1; 2; 3; 4] [5; 6])|exists 2; reflexivity]. Qed.

Theorem C14_devices_used : forall n1 dc b D, 0 < dc -> get_n_per_device n1 dc = Ok (b, D) ->
  D * b = n1 /\ D <= dc /\ (0 < n1 -> 0 < D /\ 0 < b).
Proof. exact per_device_spec. Qed.
Print Assumptions C14_devices_used.
Example C14_devices_ex : get_n_per_device 3 8 = Ok (1, 3) /\ get_n_per_device 16 8 = Ok (2, 8).
Proof. split; reflexivity. Qed.

Theorem C14_ragged_refused : forall n1 dc, 0 < dc ->
  ((exists p, get_n_per_device n1 dc = Ok p) <-> n1 < dc \/ Nat.divide dc n1).
Proof. exact per_device_complete. Qed.
Print Assumptions C14_ragged_refused.
Example C14_ragged_ex : get_n_per_device 9 8 = Raise ValueError.
Proof. reflexivity. Qed.

Theorem C14_parallel_kernel : forall A R neg g d (F : kernel_fn_t A (kernel R)) dc n1 n2 x1 x2 kw,
  pairwise_kernel g d F -> call g n1 n2 x1 (match x2 with Some x => x | None => x1 end) kw ->
  0 < n1 -> 0 < n2 -> 0 < dc -> n1 < dc \/ Nat.divide dc n1 ->
  x2 = None \/ d_mask2 d = None ->
  exists t u, parallel_fn_x1 (kernel_ops neg) F dc x1 x2 kw = Ok t
    /\ F x1 (Some (match x2 with Some x => x | None => x1 end)) kw = Ok u
    /\ kernel_eq_but t u
    /\ (x2 = None -> k_cov2 t = None) /\ (x2 <> None -> oteq (k_cov2 t) (k_cov2 u))
    /\ k_mask2 t = None /\ shape (k_x1_is_x2 t) = [].
Proof. exact @parallel_kernel. Qed.
Print Assumptions C14_parallel_kernel.
Example C14_parallel_kernel_ex : pairwise_kernel ex_sig (ex_ksig false) (ex_kernel false)
  /\ call ex_sig 4 2 (vec [1; 2; 3; 4]) (vec [5; 6]) [] /\ Nat.divide 2 4 /\ d_mask2 (ex_ksig false) = None.
Proof.
  split; [apply ex_kernel_pairwise|]. split; [apply (vec_call [1; 2; 3; 4] [5; 6])|].
  split; [exists 2; reflexivity|reflexivity].
Qed.

(** Serial over parallel. *)
Theorem C14_serial_over_parallel_array : forall A R g o (F : kernel_fn_t A (tensor R)) bs dc n1 n2 x1 x2 kw,
  pairwise_array g o F -> call g n1 n2 x1 (match x2 with Some x => x | None => x1 end) kw ->
  0 < n1 -> 0 < n2 -> 0 < bs -> 0 < dc ->
  dc <= Nat.gcd n1 n2 ->
  (exists p, get_n_batches_and_batch_sizes n1 n2 bs dc = Ok p) ->
  exists t u, batch array_ops F bs dc x1 x2 kw = Ok t
    /\ F x1 (Some (match x2 with Some x => x | None => x1 end)) kw = Ok u /\ teq t u.
Proof. exact @batch_array. Qed.
Print Assumptions C14_serial_over_parallel_array.

Theorem C14_serial_over_parallel_kernel : forall A R neg g d (F : kernel_fn_t A (kernel R)) bs dc n1 n2 x1 x2 kw,
  pairwise_kernel g d F -> call g n1 n2 x1 (match x2 with Some x => x | None => x1 end) kw ->
  0 < n1 -> 0 < n2 -> 0 < bs -> 0 < dc -> dc <= Nat.gcd n1 n2 ->
  (exists p, get_n_batches_and_batch_sizes n1 n2 bs dc = Ok p) ->
  d_mask2 d = None ->
  exists t u, batch (kernel_ops neg) F bs dc x1 x2 kw = Ok t
    /\ F x1 (Some (match x2 with Some x => x | None => x1 end)) kw = Ok u
    /\ kernel_eq_but t u
    /\ (x2 = None -> k_cov2 t = None) /\ (x2 <> None -> oteq (k_cov2 t) (k_cov2 u))
    /\ k_mask2 t = None /\ shape (k_x1_is_x2 t) = [].
Proof. exact @batch_kernel. Qed.
Print Assumptions C14_serial_over_parallel_kernel.
Example C14_serial_over_parallel_ex :
  2 <= Nat.gcd 4 4 /\ get_n_batches_and_batch_sizes 4 4 1 2 = Ok (2, 2, 4, 1)
  /\ rmap (fun t => map (fun i => map (fun j => entry t [i; j]) (seq 0 4)) (seq 0 4))
       (batch array_ops ex_array 1 2 (vec [1; 2; 3; 4]) None [])
     = Ok [[1; 2; 3; 4]; [2; 4; 6; 8]; [3; 6; 9; 12]; [4; 8; 12; 16]].
Proof. split; [simpl; lia|]. split; vm_compute; reflexivity. Qed.

(** * C15: [Kernel] inputs *)

Theorem C15_kernel_input : forall R neg d d' (F : kernel R -> result (kernel R)) bs dc n1 n2 k B1 b1 B2 b2,
  pairwise_layer d d' F -> d_batch_axis d = 0 -> kernel_of d n1 n2 (filled k) ->
  0 < n1 -> 0 < n2 -> 0 < bs -> 0 < dc ->
  get_n_batches_and_batch_sizes n1 n2 bs dc = Ok (B1, b1, B2, b2) -> 0 < b2 ->
  k_cov2 k = None \/ d_mask2 d' = None ->
  exists t u, serial_fn_kernel neg F bs dc k = Ok t
    /\ F (filled k) = Ok u
    /\ kernel_eq_but t u
    /\ (k_cov2 k = None -> k_cov2 t = None) /\ (k_cov2 k <> None -> oteq (k_cov2 t) (k_cov2 u))
    /\ k_mask2 t = None
    /\ teq (k_x1_is_x2 t) (k_x1_is_x2 u).
Proof. exact @serial_layer. Qed.
Print Assumptions C15_kernel_input.
Example C15_ex : exists k, ex_kernel false (vec [1; 2; 3; 4]) (Some (vec [5; 6])) [] = Ok k
  /\ pairwise_layer (ex_ksig false) (ex_ksig false) ex_layer /\ kernel_of (ex_ksig false) 4 2 (filled k)
  /\ get_n_batches_and_batch_sizes 4 2 1 1 = Ok (4, 1, 2, 1)
  /\ rmap (fun t => map (fun i => map (fun j => entry (k_nngp t) [i; j]) (seq 0 2)) (seq 0 4))
       (serial_fn_kernel jax_neg ex_layer 1 1 k)
     = Ok [[15; 18]; [30; 36]; [45; 54]; [60; 72]].
Proof. eexists; split; [reflexivity|]. split; [exact ex_layer_pairwise|]. repeat split; vm_compute; reflexivity. Qed.

(** * C16: the cache of compiled functions *)

(** Refuted: after a call with [x2] omitted the next call ignores its [x2]. *)
Definition ex_fn (_ : nat) (x : nat) (args : list (arg nat nat)) (_ : list (string * nat)) (_ : list (string * nat))
  : result (nat * list (arg nat nat)) := Ok (x, args).
Definition ex_call (x : nat) (args : list (arg nat nat)) : pcall nat nat nat := mkCall 0 0 x args [] [].

Theorem C16_cache_refuted :
  exists (l : list (pcall nat nat nat)) (p : pcall nat nat nat),
    let run := f_pmapped Nat.eqb Nat.eqb ex_fn (fun _ g => g) (fun _ v => v) (fun _ v => v) in
    let hist := history Nat.eqb Nat.eqb ex_fn (fun _ g => g) (fun _ v => v) (fun _ v => v) in
    l = [ex_call 1 []] /\ p = ex_call 1 [ANp 2]
    /\ snd (run [] p) = Ok (1, [ANp 2])
    /\ snd (run (hist l) p) = Ok (1, []).
Proof. do 2 eexists; repeat split. Qed.
Print Assumptions C16_cache_refuted.

(** Transparent for every history whose calls with equal keys pass arrays in the
    same positions ... *)
Theorem C16_cache_transparent_consistent : forall V W Fid O (W_eqb : W -> W -> bool) (Fid_eqb : Fid -> Fid -> bool),
  (forall a b, W_eqb a b = true <-> a = b) -> (forall a b, Fid_eqb a b = true <-> a = b) ->
  forall (sem : Fid -> V -> list (arg V W) -> list (string * V) -> list (string * W) -> result O)
    pmap broadcast broadcast_kw l p,
  consistent (l ++ [p]) ->
  snd (f_pmapped W_eqb Fid_eqb sem pmap broadcast broadcast_kw
         (history W_eqb Fid_eqb sem pmap broadcast broadcast_kw l) p)
  = snd (f_pmapped W_eqb Fid_eqb sem pmap broadcast broadcast_kw [] p).
Proof. exact @transparent. Qed.
Print Assumptions C16_cache_transparent_consistent.

(** ... in particular when all calls have equally many positional arguments ... *)
Theorem C16_fixed_arity_consistent : forall V W Fid n (l : list (pcall V W Fid)),
  (forall p, In p l -> List.length (p_args p) = n) -> consistent l.
Proof. exact @fixed_arity_consistent. Qed.
Print Assumptions C16_fixed_arity_consistent.
Example C16_consistent_ex : consistent [ex_call 1 [AOther 7; ANp 2]; ex_call 3 [ANp 2; AOther 7]; ex_call 3 [ANp 4; ANp 5]].
Proof.
  apply (fixed_arity_consistent 2). intros p [<-|[<-|[<-|[]]]]; reflexivity.
Qed.

(** ... and an uncached single-device call passes on exactly the given arguments. *)
Theorem C16_fresh_call : forall V W Fid O (W_eqb : W -> W -> bool) (Fid_eqb : Fid -> Fid -> bool)
    (sem : Fid -> V -> list (arg V W) -> list (string * V) -> list (string * W) -> result O)
    pmap broadcast broadcast_kw p,
  p_dc p = 0 ->
  snd (f_pmapped W_eqb Fid_eqb sem pmap broadcast broadcast_kw [] p)
  = sem (p_f p) (p_x p) (p_args p) (p_kwnp p) (p_kwother p).
Proof. exact @fresh_call. Qed.
Print Assumptions C16_fresh_call.
Example C16_fresh_ex : p_dc (ex_call 3 [ANp 2; AOther 7]) = 0.
Proof. reflexivity. Qed.
