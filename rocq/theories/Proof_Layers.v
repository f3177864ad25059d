(** Variances, their outer products, and formulas of arrays in the layouts of a kernel. *)
From Coq Require Import Reals List Arith Lia Lra Bool Permutation.
From Verif Require Import Base Tensor Reshape Model_Axes Model_Geom Model_Net Model_Empirical Model_Lax Model_PredictArr Model_Kernel Spec_Geom Spec_Inputs Spec_Aggregate Spec_Axes Model_Conv Spec_Conv
  Model_Layers Spec_Layers Proof_Axes Proof_Axes2 Proof_Conv5 Proof_Conv6 Spec_PredictArr Proof_PredictArr Proof_PredictArr5.
Import ListNotations.
Local Open Scope R_scope.

(** ** Layouts: axes kept once in front, paired axes, axes kept once behind *)
Definition lb {A} (db : bool) (n : A) : list A := if db then [n] else [].
Definition lp {A} (db ds : bool) (n : A) (sp : list A) : list A := (if db then [] else [n]) ++ (if ds then [] else sp).
Definition le_ {A} (ds : bool) (sp : list A) : list A := if ds then sp else [].

Lemma bat_lay db ds (n m : nat) sp sq : bat db n m ++ lay ds sp sq = lb db n ++ interleave (lp db ds n sp) (lp db ds m sq) ++ le_ ds sp.
Proof. destruct db, ds; cbn; rewrite ?app_nil_r; reflexivity. Qed.
Lemma var_lay {A} db ds (n : A) sp : n :: sp = lb db n ++ lp db ds n sp ++ le_ ds sp.
Proof. destruct db, ds; cbn; rewrite ?app_nil_r; reflexivity. Qed.
Lemma lp_length {A} db ds (n m : A) sp sq : length sp = length sq -> length (lp db ds n sp) = length (lp db ds m sq).
Proof. intros H. destruct db, ds; cbn; lia. Qed.
Lemma lb_in db n i : (i < n)%nat -> in_range (lb db n) (lb db i).
Proof. intros. destruct db; repeat constructor; auto. Qed.
Lemma lp_in db ds n sp i p : (i < n)%nat -> in_range sp p -> in_range (lp db ds n sp) (lp db ds i p).
Proof. intros. destruct db, ds; cbn; repeat constructor; auto. Qed.
Lemma le_in ds sp p : in_range sp p -> in_range (le_ ds sp) (le_ ds p).
Proof. intros. destruct ds; cbn; auto. constructor. Qed.
Lemma lay_in db ds n m sp sq i j p q : (i < n)%nat -> (j < m)%nat -> in_range sp p -> in_range sq q -> length sp = length sq ->
  in_range (bat db n m ++ lay ds sp sq) (bat db i j ++ lay ds p q).
Proof.
  intros. apply in_range_app; [apply bat_in; auto|]. destruct ds; cbn [lay]; auto. apply in_range_interleave; auto.
Qed.
Lemma held_shape r db ds n m sp (G : covariances) (t : tensor R) : held r db ds n m sp G t -> shape t = bat db n m ++ lay ds (ord r sp) (ord r sp).
Proof. intros [H _]. exact H. Qed.

Lemma ord_in' r sp p : in_range sp p -> in_range (ord r sp) (ord r p).
Proof. apply ord_in. Qed.

(** An array of variances. *)
Definition vars (r : bool) (n : nat) (sp : list nat) (V : nat -> loc -> R) (v : tensor R) : Prop :=
  shape v = n :: ord r sp /\ forall i p, (i < n)%nat -> in_range sp p -> entry v (i :: ord r p) = V i p.

Lemma held_diagonal r db ds n sp (G : covariances) (t : tensor R) : held r db ds n n sp G t ->
  exists v, get_diagonal t db ds = Ok v /\ vars r n sp (var G) v.
Proof.
  intros H. pose proof (held_shape _ _ _ _ _ _ _ _ H) as S. rewrite bat_lay in S. unfold get_diagonal.
  set (sb := lb db n) in *. set (sq := lp db ds n (ord r sp)) in *. set (se := le_ ds (ord r sp)) in *.
  assert (E1 : (2 - (if db then 1 else 2))%nat = length sb) by (destruct db; reflexivity). rewrite E1.
  assert (E2 : (if ds then if db then 1 else 2 else ndim t)%nat = (length sb + 2 * length sq)%nat).
  { unfold ndim. rewrite S, !app_length, interleave_length by reflexivity. unfold sb, sq, se. destruct db, ds; cbn; lia. }
  rewrite E2.
  destruct (unzip_axes_spec t (length sb) (Some (length sb + 2 * length sq)%nat) sb sq sq se S eq_refl eq_refl eq_refl) as (u & Eu & Su & Ru).
  rewrite Eu. cbn [bind].
  destruct (diagonal_between_spec u (Some (length sb + 2 * length sq)%nat) sb sq se Su eq_refl) as (v & Ev & Sv & Rv).
  exists v. split; [exact Ev|]. split; [rewrite Sv; symmetry; apply var_lay|].
  intros i p Hi Hp. rewrite (var_lay db ds). pose proof (ord_in' r _ _ Hp) as Hp'.
  rewrite Rv by (first [apply lb_in|apply lp_in|apply le_in]; auto).
  rewrite Ru.
  - rewrite <- bat_lay. rewrite (held_entry _ _ _ _ _ _ _ _ i i p p H) by auto. reflexivity.
  - destruct db; reflexivity.
  - apply lp_length. rewrite !ord_length. apply (in_range_length _ _ Hp).
  - apply lp_length. rewrite !ord_length. apply (in_range_length _ _ Hp).
  - apply (in_range_length _ _ (le_in ds _ _ Hp')).
Qed.

Lemma outer_held (op : R -> R -> R) (r db ds : bool) n m sp V W (x y : tensor R) : vars r n sp V x -> vars r m sp W y -> (db = true -> n = m) ->
  exists z, outer_prod x (Some y) (if db then 1 else 0) (if ds then 1 else ndim x)%nat op = Ok z
    /\ held r db ds n m sp (fun i j p q => op (V i p) (W j q)) z.
Proof.
  intros [Sx Rx] [Sy Ry] Hnm. rewrite (var_lay db ds) in Sx, Sy.
  assert (Sy' : shape y = lb db n ++ lp db ds m (ord r sp) ++ le_ ds (ord r sp)).
  { rewrite Sy. destruct db; cbn; auto. rewrite Hnm; auto. }
  destruct (outer_prod_spec op x y _ _ _ _ Sx Sy' (lp_length db ds n m _ _ eq_refl)) as (z & Ez & Sz & Rz).
  assert (E1 : length (lb db n) = (if db then 1 else 0)%nat) by (destruct db; reflexivity).
  assert (E2 : (length (lb db n) + length (lp db ds n (ord r sp)))%nat = (if ds then 1 else ndim x)%nat).
  { unfold ndim. rewrite Sx, !app_length. destruct db, ds; cbn; lia. }
  rewrite E2, E1 in Ez. exists z. split; [exact Ez|]. apply held_intro.
  - rewrite Sz, bat_lay. reflexivity.
  - intros i j p q Hi Hj Hp Hq H1 H2. pose proof (ord_in' r _ _ Hp) as Hp'. pose proof (ord_in' r _ _ Hq) as Hq'.
    rewrite bat_lay, Rz by (first [apply lb_in|apply lp_in|apply le_in]; auto). f_equal.
    + rewrite <- var_lay. apply Rx; auto.
    + assert (Eb : lb db i = lb db j) by (destruct db; cbn; [rewrite H1|]; auto).
      assert (Ee : le_ ds (ord r p) = le_ ds (ord r q)) by (destruct ds; cbn; [rewrite H2|]; auto).
      rewrite Eb, Ee, <- var_lay. apply Ry; auto.
Qed.
Lemma outer_none {A C} (x : tensor A) s e (op : A -> A -> C) : outer_prod x None s e op = outer_prod x (Some x) s e op.
Proof. reflexivity. Qed.

(** ** Formulas of arrays *)
(** An array that broadcasts to the layout. *)
Definition spreads (r db ds : bool) (n m : nat) (sp : list nat) (P : covariances) (t : tensor R) : Prop :=
  let s := bat db n m ++ lay ds (ord r sp) (ord r sp) in
  bcompat s (shape t) = true /\ bshape s (shape t) = s
  /\ forall i j p q, (i < n)%nat -> (j < m)%nat -> in_range sp p -> in_range sp q -> (db = true -> i = j) -> (ds = true -> p = q) ->
       entry t (clip (shape t) (bat db i j ++ lay ds (ord r p) (ord r q))) = P i j p q.

Lemma bcompat_refl s : bcompat s s = true.
Proof. unfold bcompat. rewrite Nat.eqb_refl. cbn [andb]. induction s; cbn; auto. rewrite Nat.eqb_refl. auto. Qed.
Lemma held_in r db ds n m sp (G : covariances) (t : tensor R) i j p q : held r db ds n m sp G t -> (i < n)%nat -> (j < m)%nat -> in_range sp p -> in_range sp q ->
  in_range (shape t) (bat db i j ++ lay ds (ord r p) (ord r q)).
Proof. intros H Hi Hj Hp Hq. rewrite (held_shape _ _ _ _ _ _ _ _ H). apply lay_in; auto using ord_in'. Qed.
Lemma held_spreads r db ds n m sp (G : covariances) (t : tensor R) : held r db ds n m sp G t -> spreads r db ds n m sp G t.
Proof.
  intros H. pose proof (held_shape _ _ _ _ _ _ _ _ H) as S. unfold spreads. rewrite S. split; [apply bcompat_refl|]. split; [apply bshape_id|].
  intros i j p q Hi Hj Hp Hq H1 H2. rewrite clip_id by (rewrite <- S; eapply held_in; eauto). apply (held_entry _ _ _ _ _ _ _ _ i j p q H); auto.
Qed.

Lemma gather_held r db ds n m sp (ps : list (tensor R)) (Ps : list covariances) :
  Forall2 (spreads r db ds n m sp) Ps ps -> forall (acc : tensor (R * list R)) (F : nat -> nat -> loc -> loc -> R * list R),
  shape acc = bat db n m ++ lay ds (ord r sp) (ord r sp) ->
  (forall i j p q, (i < n)%nat -> (j < m)%nat -> in_range sp p -> in_range sp q -> (db = true -> i = j) -> (ds = true -> p = q) ->
     entry acc (bat db i j ++ lay ds (ord r p) (ord r q)) = F i j p q) ->
  exists t, gather acc ps = Ok t /\ shape t = bat db n m ++ lay ds (ord r sp) (ord r sp)
    /\ forall i j p q, (i < n)%nat -> (j < m)%nat -> in_range sp p -> in_range sp q -> (db = true -> i = j) -> (ds = true -> p = q) ->
       entry t (bat db i j ++ lay ds (ord r p) (ord r q)) = (fst (F i j p q), snd (F i j p q) ++ map (fun P => P i j p q) Ps).
Proof.
  induction 1 as [|P p Ps ps (C & B & V) _ IH]; intros acc F S E.
  - exists acc. split; [reflexivity|]. split; [exact S|]. intros. rewrite E by auto. cbn [map]. rewrite app_nil_r. apply surjective_pairing.
  - cbn [gather]. unfold broadcast2. rewrite S, C, B. cbn [bind].
    destruct (IH (mkT (bat db n m ++ lay ds (ord r sp) (ord r sp)) (fun i => (fst (entry acc (clip (bat db n m ++ lay ds (ord r sp) (ord r sp)) i)), snd (entry acc (clip (bat db n m ++ lay ds (ord r sp) (ord r sp)) i)) ++ [entry p (clip (shape p) i)])))
      (fun i j p q => (fst (F i j p q), snd (F i j p q) ++ [P i j p q]))) as (t & Et & St & Rt).
    { reflexivity. }
    { intros i j a b Hi Hj Hp Hq H1 H2. cbn [entry]. rewrite clip_id by (apply lay_in; auto using ord_in'). rewrite E, V by auto. reflexivity. }
    exists t. split; [exact Et|]. split; [exact St|]. intros i j a b Hi Hj Hp Hq H1 H2. rewrite Rt by auto. cbn [fst snd map]. rewrite <- app_assoc. reflexivity.
Qed.
Lemma np_map_held f r db ds n m sp (G : covariances) (x : tensor R) (Ps : list covariances) (ps : list (tensor R)) :
  held r db ds n m sp G x -> Forall2 (spreads r db ds n m sp) Ps ps ->
  exists u, np_map f x ps = Ok u /\ held r db ds n m sp (fun i j p q => f (G i j p q) (map (fun P => P i j p q) Ps)) u.
Proof.
  intros H F. unfold np_map.
  destruct (gather_held r db ds n m sp ps Ps F (Model_Kernel.tmap (fun v => (v, [])) x) (fun i j p q => (G i j p q, []))) as (t & Et & St & Rt).
  - apply (held_shape _ _ _ _ _ _ _ _ H).
  - intros. cbn [Model_Kernel.tmap entry]. rewrite (held_entry _ _ _ _ _ _ _ _ i j p q H) by auto. reflexivity.
  - rewrite Et. cbn [bind]. eexists. split; [reflexivity|]. apply held_intro; [exact St|].
    intros. cbn [Model_Kernel.tmap entry]. rewrite Rt by auto. reflexivity.
Qed.
Lemma tmap_held f r db ds n m sp (G : covariances) (t : tensor R) : held r db ds n m sp G t -> held r db ds n m sp (fun i j p q => f (G i j p q)) (Model_Kernel.tmap f t).
Proof.
  intros H. apply held_intro; [apply (held_shape _ _ _ _ _ _ _ _ H)|]. intros. cbn [Model_Kernel.tmap entry].
  rewrite (held_entry _ _ _ _ _ _ _ _ i j p q H) by auto. reflexivity.
Qed.
Lemma op_held (op : R -> R -> R) r db ds n m sp (G H : covariances) (x y : tensor R) : held r db ds n m sp G x -> held r db ds n m sp H y ->
  exists u, np_op op x y = Ok u /\ held r db ds n m sp (fun i j p q => op (G i j p q) (H i j p q)) u.
Proof.
  intros Hx Hy. destruct (np_op_same op x y _ (held_shape _ _ _ _ _ _ _ _ Hx) (held_shape _ _ _ _ _ _ _ _ Hy)) as (u & E & S & V).
  exists u. split; [exact E|]. apply held_intro; [exact S|]. intros i j p q Hi Hj Hp Hq H1 H2. rewrite V by (apply lay_in; auto using ord_in').
  rewrite (held_entry _ _ _ _ _ _ _ _ i j p q Hx), (held_entry _ _ _ _ _ _ _ _ i j p q Hy) by auto. reflexivity.
Qed.

(** The tangent kernel: an array, or the number 0. *)
Definition held0 (r ds : bool) (n m : nat) (sp : list nat) (T : covariances) (t : tensor R) : Prop :=
  held r false ds n m sp T t \/ shape t = [] /\ entry t [] = 0 /\ forall i j p q, T i j p q = 0.
Lemma times_held r ds n m sp (T D : covariances) (t d : tensor R) : held0 r ds n m sp T t -> held r false ds n m sp D d ->
  exists u, np_op Rmult t d = Ok u /\ held r false ds n m sp (fun i j p q => T i j p q * D i j p q) u.
Proof.
  intros [Ht|(S & Z & E)] Hd; [apply (op_held Rmult); auto|].
  destruct (np_op_left Rmult t d (shape d)) as (u & Eu & Su & V); auto.
  { rewrite S. split; [cbn; lia|]. intros a Ha. cbn in Ha. lia. }
  exists u. split; [exact Eu|]. apply held_intro; [rewrite Su; apply (held_shape _ _ _ _ _ _ _ _ Hd)|].
  intros i j p q Hi Hj Hp Hq H1 H2. rewrite V by (eapply held_in; eauto). rewrite (held_entry _ _ _ _ _ _ _ _ i j p q Hd) by auto.
  rewrite E. unfold value, ndim. rewrite S. cbn [length seq map]. rewrite Z. reflexivity.
Qed.
