(** Model of the compiled-function cache, batching.py:689-787
    [_get_jit_or_pmap_broadcast].

    Positional arguments after the first and keyword arguments are either arrays
    (trees of arrays) or other, hashable, values. [jax.jit] keeps the meaning of
    the function; [pmap] is a parameter. Python's [==] on the hashed values is
    taken to be equality. *)
From Coq Require Import List Arith Lia Bool String.
From Verif Require Import Base.
Import ListNotations.
Local Open Scope nat_scope.
Local Open Scope list_scope.

Section Cache.
  (** arrays, other values, function identities, results *)
  Context {V W Fid O : Type}.
  Context (W_eqb : W -> W -> bool) (Fid_eqb : Fid -> Fid -> bool).

  Inductive arg := ANp (v : V) | AOther (w : W).

  (** What a function identity stands for: [f(x, *args, **kwargs)]; array-valued
      and other keyword arguments apart. *)
  Context (sem : Fid -> V -> list arg -> list (string * V) -> list (string * W) -> result O).
  (** [pmap(g)] on [device_count] devices and [jnp.broadcast_to(a, (device_count,) + a.shape)]
      (lines 731-735); on keyword pairs the broadcast concerns the second member. *)
  Context (pmap : nat -> (V -> list V -> list (string * V) -> result O)
                  -> V -> list V -> list (string * V) -> result O).
  Context (broadcast broadcast_kw : nat -> V -> V).

  (** One call [f_pmapped(x, *args, **kwargs)] of [jit_or_pmap_broadcast(f, device_count)]. *)
  Record pcall := mkCall {
    p_f : Fid; p_dc : nat; p_x : V; p_args : list arg;
    p_kwnp : list (string * V); p_kwother : list (string * W) }.

  (** Lines 744-749: [enumerate(args)] split into arrays, their positions and the rest. *)
  Fixpoint split_args (i : nat) (args : list arg) : list V * list nat * list (nat * W) :=
    match args with
    | [] => ([], [], [])
    | a :: args' =>
        let '(vs, idxs, others) := split_args (S i) args' in
        match a with
        | ANp v => (v :: vs, i :: idxs, others)
        | AOther w => (vs, idxs, (i, w) :: others)
        end
    end.

  (** Lines 760-762. *)
  Definition key := (Fid * nat * list (nat * W) * list (string * W))%type.
  (** What the cached closure holds on to. *)
  Record closure := mkClo {
    c_f : Fid; c_dc : nat; c_idxs : list nat; c_others : list (nat * W); c_kwother : list (string * W) }.

  Fixpoint others_eqb (l l' : list (nat * W)) : bool :=
    match l, l' with
    | [], [] => true
    | (i, w) :: l, (i', w') :: l' => (i =? i') && W_eqb w w' && others_eqb l l'
    | _, _ => false
    end.
  Fixpoint kw_eqb (l l' : list (string * W)) : bool :=
    match l, l' with
    | [], [] => true
    | (i, w) :: l, (i', w') :: l' => String.eqb i i' && W_eqb w w' && kw_eqb l l'
    | _, _ => false
    end.
  Definition key_eqb (k k' : key) : bool :=
    let '(f, n, o, w) := k in
    let '(f', n', o', w') := k' in
    Fid_eqb f f' && (n =? n') && others_eqb o o' && kw_eqb w w'.

  Definition cache := list (key * closure).

  Fixpoint lookup (c : cache) (k : key) : option closure :=
    match c with
    | [] => None
    | (k', clo) :: c' => if key_eqb k k' then Some clo else lookup c' k
    end.

  (** [sorted(_args.items())] by position, line 772. *)
  Fixpoint insert_arg (p : nat * arg) (l : list (nat * arg)) : list (nat * arg) :=
    match l with
    | [] => [p]
    | q :: l' => if fst p <=? fst q then p :: l else q :: insert_arg p l'
    end.
  Definition sort_args (l : list (nat * arg)) : list (nat * arg) := fold_right insert_arg [] l.

  (** Lines 768-775: the closure. [zip] stops at the shorter list. *)
  Definition closure_fn (c : closure) (x : V) (vs : list V) (kwnp : list (string * V)) : result O :=
    let args_np := map (fun p => (fst p, ANp (snd p))) (combine (c_idxs c) vs) in
    let args_other := map (fun p => (fst p, AOther (snd p))) (c_others c) in
    sem (c_f c) x (map snd (sort_args (args_np ++ args_other))) kwnp (c_kwother c).

  (** Lines 777-783: [jit] for [device_count == 0]. *)
  Definition run_closure (c : closure) (x : V) (vs : list V) (kwnp : list (string * V)) : result O :=
    if c_dc c =? 0 then closure_fn c x vs kwnp else pmap (c_dc c) (closure_fn c) x vs kwnp.

  Definition bc (n : nat) (v : V) : V := if n =? 0 then v else broadcast n v.
  Definition bck (n : nat) (v : V) : V := if n =? 0 then v else broadcast_kw n v.

  (** Lines 737-783 [f_pmapped]; the cache is filled before the function runs. *)
  Definition f_pmapped (c : cache) (p : pcall) : cache * result O :=
    let '(vs, idxs, others) := split_args 0 (p_args p) in
    let kwnp := map (fun kv => (fst kv, bck (p_dc p) (snd kv))) (p_kwnp p) in
    let k := (p_f p, p_dc p, others, p_kwother p) in
    let '(clo, c) := match lookup c k with
                     | Some clo => (clo, c)
                     | None => let clo := mkClo (p_f p) (p_dc p) idxs others (p_kwother p) in
                               (clo, (k, clo) :: c)
                     end in
    (c, run_closure clo (p_x p) (map (bc (p_dc p)) vs) kwnp).

  (** A history of calls from the empty cache. *)
  Definition history (l : list pcall) : cache := fold_left (fun c p => fst (f_pmapped c p)) l [].
End Cache.
Arguments arg : clear implicits.
Arguments pcall : clear implicits.
Arguments cache : clear implicits.
Arguments closure : clear implicits.
