(** Broadcasting arrays, and [einsum] over them. *)
From Coq Require Import Reals ZArith List Arith Lia Bool Permutation.
From Verif Require Import Base Tensor Reshape Model_Axes Model_Net Model_Kernel Model_Predict Model_Empirical Model_Mask Model_Aggregate Model_Attention
  Proof_Axes Proof_Axes2 Proof_Tsum Proof_Einsum.
Import ListNotations.
Local Open Scope R_scope.

(** ** Arrays read at the indices of a larger shape *)
Definition breads {A} (sh : list nat) (F : list nat -> A) (t : tensor A) : Prop :=
  shape t = [] /\ (forall i, in_range sh i -> entry t [] = F i)
  \/ Forall2 (fun s n => s = n \/ s = 1%nat) (shape t) sh /\ (forall i, in_range sh i -> entry t (clip (shape t) i) = F i).

Lemma shorter_refl sh : Forall2 (fun s n => s = n \/ s = 1%nat) sh sh.
Proof. induction sh; constructor; auto. Qed.
Lemma breads_self {A} (t : tensor A) : breads (shape t) (entry t) t.
Proof.
  right. split; [apply shorter_refl|].
  intros i Hi. now rewrite clip_id.
Qed.
Lemma breads_exact {A} sh F (t : tensor A) : breads sh F t -> shape t = sh -> forall i, in_range sh i -> entry t i = F i.
Proof.
  intros [[E H]|[E H]] Hs i Hi.
  - rewrite <- (H i Hi). rewrite E in Hs. subst sh. inversion Hi. reflexivity.
  - rewrite <- (H i Hi), clip_id; auto. now rewrite Hs.
Qed.
Lemma breads_of {A} sh F (t : tensor A) : shape t = sh -> (forall i, in_range sh i -> entry t i = F i) -> breads sh F t.
Proof.
  intros <- H. right. split; [apply shorter_refl|].
  intros i Hi. rewrite clip_id by auto. auto.
Qed.
Lemma breads_ext {A} sh F G (t : tensor A) : (forall i, in_range sh i -> F i = G i) -> breads sh F t -> breads sh G t.
Proof. intros E [[S H]|[S H]]; [left|right]; split; auto; intros i Hi; rewrite <- E by auto; apply H; auto. Qed.
Lemma breads_tmap {A B} (f : A -> B) sh F (t : tensor A) : breads sh F t -> breads sh (fun i => f (F i)) (tmap f t).
Proof. intros [[S H]|[S H]]; [left|right]; split; auto; intros i Hi; cbn [tmap entry shape]; rewrite (H i Hi); auto. Qed.

Lemma clip_shorter s1 s2 sh i : Forall2 (fun s n => s = n \/ s = 1%nat) s1 sh -> Forall2 (fun s n => s = n \/ s = 1%nat) s2 sh -> in_range sh i ->
  clip s1 (clip (bshape s1 s2) i) = clip s1 i /\ clip s2 (clip (bshape s1 s2) i) = clip s2 i.
Proof.
  intros H1; revert s2 i; induction H1 as [|a n s1 sh Ha H1 IH]; intros s2 i H2 Hi; inversion H2 as [|b n' s2' sh' Hb H2']; inversion Hi as [|x n'' i' sh'' Hx Hi']; subst; [auto|].
  destruct (IH s2' i' H2' Hi') as [E1 E2]. unfold clip, bshape in *. cbn [combine map fst snd] in *.
  split; f_equal; auto; destruct (Nat.eqb_spec a 1) as [Ea|Na]; destruct (Nat.eqb_spec b 1) as [Eb|Nb]; cbn;
    rewrite ?(proj2 (Nat.eqb_eq _ _) Ea), ?(proj2 (Nat.eqb_eq _ _) Eb), ?(proj2 (Nat.eqb_neq _ _) Na), ?(proj2 (Nat.eqb_neq _ _) Nb); try reflexivity;
    destruct Ha, Hb; lia.
Qed.
Lemma bcompat_shorter s1 s2 sh : Forall2 (fun s n => s = n \/ s = 1%nat) s1 sh -> Forall2 (fun s n => s = n \/ s = 1%nat) s2 sh -> bcompat s1 s2 = true.
Proof.
  intros H1 H2. unfold bcompat. apply andb_true_iff. split.
  - apply Nat.eqb_eq. rewrite (Forall2_length _ _ _ H1), (Forall2_length _ _ _ H2). reflexivity.
  - revert s2 H2; induction H1 as [|a n s1 sh Ha H1 IH]; intros s2 H2; inversion H2 as [|b n' s2' sh' Hb H2']; subst; cbn; auto.
    rewrite (IH s2' H2'), andb_true_r. destruct Ha as [->| ->], Hb as [->| ->]; rewrite ?Nat.eqb_refl, ?orb_true_r; auto.
Qed.
Lemma bshape_shorter s1 s2 sh : Forall2 (fun s n => s = n \/ s = 1%nat) s1 sh -> Forall2 (fun s n => s = n \/ s = 1%nat) s2 sh ->
  Forall2 (fun s n => s = n \/ s = 1%nat) (bshape s1 s2) sh.
Proof.
  intros H1; revert s2; induction H1 as [|a n s1 sh Ha H1 IH]; intros s2 H2; inversion H2 as [|b n' s2' sh' Hb H2']; subst; [constructor|].
  unfold bshape in *. cbn [combine map fst snd]. constructor; [|apply IH; auto]. destruct (Nat.eqb_spec a 1); subst; auto.
Qed.
Lemma bshape_full s1 s2 sh : Forall2 (fun s n => s = n \/ s = 1%nat) s1 sh -> Forall2 (fun s n => s = n \/ s = 1%nat) s2 sh ->
  s1 = sh \/ s2 = sh -> bshape s1 s2 = sh.
Proof.
  intros H1; revert s2; induction H1 as [|a n s1 sh Ha H1 IH]; intros s2 H2 E; inversion H2 as [|b n' s2' sh' Hb H2']; subst; [reflexivity|].
  unfold bshape in *. cbn [combine map fst snd]. f_equal.
  - destruct (Nat.eqb_spec a 1); destruct E as [E|E]; injection E as ? ?; subst; try reflexivity; destruct Ha, Hb; subst; congruence.
  - apply IH; auto. destruct E as [E|E]; injection E as ? ?; auto.
Qed.

Lemma broadcast2_breads {A B C} (op : A -> B -> C) sh F G x y :
  Forall2 (fun s n => s = n \/ s = 1%nat) (shape x) sh -> Forall2 (fun s n => s = n \/ s = 1%nat) (shape y) sh ->
  (forall i, in_range sh i -> entry x (clip (shape x) i) = F i) -> (forall i, in_range sh i -> entry y (clip (shape y) i) = G i) ->
  exists z, broadcast2 op x y = Ok z /\ breads sh (fun i => op (F i) (G i)) z
    /\ Forall2 (fun s n => s = n \/ s = 1%nat) (shape z) sh /\ (shape x = sh \/ shape y = sh -> shape z = sh) /\ ndim z = length sh.
Proof.
  intros Sx Sy Hx Hy. unfold broadcast2. rewrite (bcompat_shorter _ _ _ Sx Sy). eexists. split; [reflexivity|]. repeat split.
  - right. cbn [shape entry]. split; [apply bshape_shorter; auto|]. intros i Hi.
    destruct (clip_shorter _ _ _ i Sx Sy Hi) as [-> ->]. rewrite Hx, Hy; auto.
  - apply bshape_shorter; auto.
  - cbn [shape]. apply bshape_full; auto.
  - unfold ndim. cbn [shape]. apply Forall2_length with (1 := bshape_shorter _ _ _ Sx Sy).
Qed.

Lemma elementwise_breads {A B C} (op : A -> B -> C) sh F G x y : sh <> [] -> breads sh F x -> breads sh G y ->
  exists z, elementwise op x y = Ok z /\ breads sh (fun i => op (F i) (G i)) z /\ (shape x = sh \/ shape y = sh -> shape z = sh).
Proof.
  intros Hne Hx Hy. unfold elementwise.
  assert (Nx : forall (t : tensor A) l, shape t = l -> l <> [] -> (ndim t =? 0)%nat = false) by (intros t l <- Hl; unfold ndim; destruct (shape t); [congruence|reflexivity]).
  assert (Ny : forall (t : tensor B) l, shape t = l -> l <> [] -> (ndim t =? 0)%nat = false) by (intros t l <- Hl; unfold ndim; destruct (shape t); [congruence|reflexivity]).
  destruct Hx as [[Sx Ex]|[Sx Ex]].
  - unfold ndim. rewrite Sx. cbn [length Nat.eqb]. eexists. split; [reflexivity|]. split.
    + destruct Hy as [[Sy Ey]|[Sy Ey]]; [left|right]; cbn [shape entry]; split; auto; intros i Hi; rewrite (Ex i Hi), (Ey i Hi); auto.
    + cbn [shape]. intros [E|E]; auto. congruence.
  - assert (shape x <> []) by (intros E; rewrite E in Sx; inversion Sx; congruence).
    rewrite (Nx x (shape x)) by auto. destruct Hy as [[Sy Ey]|[Sy Ey]].
    + unfold ndim. rewrite Sy. cbn [length Nat.eqb]. eexists. split; [reflexivity|]. split.
      * right. cbn [shape entry]. split; auto. intros i Hi. rewrite (Ex i Hi), (Ey i Hi); auto.
      * cbn [shape]. intros [E|E]; auto. congruence.
    + assert (shape y <> []) by (intros E; rewrite E in Sy; inversion Sy; congruence).
      rewrite (Ny y (shape y)) by auto. destruct (broadcast2_breads op sh F G x y Sx Sy Ex Ey) as (z & E & B1 & _ & B2 & _). eauto.
Qed.

Lemma broadcast_to_breads {A} sh F (t : tensor A) : breads sh F t -> shape t <> [] ->
  exists u, broadcast_to sh t = Ok u /\ shape u = sh /\ forall i, in_range sh i -> entry u i = F i.
Proof.
  intros [[S _]|[S H]] Hne; [congruence|]. unfold broadcast_to.
  assert (forallb (fun ab => (fst ab =? snd ab) || (fst ab =? 1))%nat (combine (shape t) sh) = true) as ->.
  { clear -S. induction S as [|a n l sh Ha S IH]; cbn; auto. rewrite IH, andb_true_r. destruct Ha as [-> | ->]; rewrite ?Nat.eqb_refl, ?orb_true_r; auto. }
  rewrite (Forall2_length _ _ _ S), Nat.eqb_refl. cbn [andb]. eexists. split; [reflexivity|]. cbn [shape entry]. auto.
Qed.

(** ** [einsum] with stretched axes *)
Lemma stretched_shape (sz : Z -> nat) (d : list Z) s : Forall2 (fun l s => s = sz l \/ s = 1%nat) d s ->
  map (fun ls => if (snd ls =? 1)%nat then sz (fst ls) else snd ls) (combine d s) = map sz d.
Proof.
  induction 1 as [|l a d s Ha H IH]; [reflexivity|]. cbn [combine map fst snd]. rewrite IH. f_equal.
  destruct (Nat.eqb_spec a 1); [reflexivity|]. destruct Ha; [auto|contradiction].
Qed.

Lemma zindex_nth (sg : Z -> nat) d s l : Forall2 (fun l s => s = sg l \/ s = 1%nat) d s -> In l d ->
  nth (zindex l d) s 0%nat = sg l \/ nth (zindex l d) s 0%nat = 1%nat.
Proof.
  induction 1 as [|m a d s Ha H IH]; intros Hl; [destruct Hl|]. cbn. destruct (Z.eqb_spec l m) as [->|]; [auto|].
  destruct Hl as [->|Hl]; [congruence|]. auto.
Qed.

Lemma largest_size_of (sg : Z -> nat) ops l :
  (forall t d, In (t, d) ops -> Forall2 (fun l s => s = sg l \/ s = 1%nat) d (shape t)) ->
  (exists t d, In (t, d) ops /\ In l d /\ nth (zindex l d) (shape t) 0%nat = sg l) -> largest_size ops l = sg l.
Proof.
  unfold largest_size. induction ops as [|[t d] ops IH]; intros H (t0 & d0 & Hin & Hl & E); [destruct Hin|]. cbn [fold_right fst snd].
  destruct (zmem l d) eqn:Em; cbn [andb].
  - apply zmem_In in Em. pose proof (zindex_nth sg d (shape t) l (H t d ltac:(left; auto)) Em) as Hn.
    destruct (Nat.eqb_spec (nth (zindex l d) (shape t) 0%nat) 1) as [E1|N1]; cbn [negb].
    + destruct (Nat.eq_dec (sg l) 1) as [E2|N2].
      * clear Hin Hl E t0 d0. assert (G : forall ops', (forall t d, In (t, d) ops' -> Forall2 (fun l s => s = sg l \/ s = 1%nat) d (shape t)) ->
          fold_right (fun (td : tensor R * list Z) acc => if zmem l (snd td) && negb (nth (zindex l (snd td)) (shape (fst td)) 0 =? 1)%nat
            then nth (zindex l (snd td)) (shape (fst td)) 0%nat else acc) 1%nat ops' = sg l).
        { induction ops' as [|[t' d'] ops' IH']; intros H'; [auto|]. cbn [fold_right fst snd]. destruct (zmem l d') eqn:E'; cbn [andb]; [|apply IH'; intros; apply H'; right; auto].
          apply zmem_In in E'. destruct (zindex_nth sg d' (shape t') l (H' t' d' ltac:(left; auto)) E') as [E3|E3];
          (destruct (Nat.eqb_spec (nth (zindex l d') (shape t') 0%nat) 1); cbn [negb]; [apply IH'; intros; apply H'; right; auto|]); auto. congruence. }
        apply G. intros; apply H; right; auto.
      * apply IH; [intros; apply H; right; auto|]. destruct Hin as [Hin|Hin]; [injection Hin as -> ->; congruence|eauto 6].
    + destruct Hn; [auto|contradiction].
  - apply IH; [intros; apply H; right; auto|]. destruct Hin as [Hin|Hin]; [injection Hin as -> ->; apply zmem_false in Em; contradiction|eauto 6].
Qed.

Theorem jnp_einsum_read ops out (sg : Z -> nat) cs :
  (forall t d, In (t, d) ops -> Forall2 (fun l s => s = sg l \/ s = 1%nat) d (shape t)) ->
  (forall l, In l (concat (map snd ops)) -> exists t d, In (t, d) ops /\ In l d /\ nth (zindex l d) (shape t) 0%nat = sg l) ->
  NoDup out -> incl out (concat (map snd ops)) ->
  NoDup cs -> (forall l, In l cs <-> In l (concat (map snd ops)) /\ ~ In l out) ->
  exists t, jnp_einsum ops out = Ok t /\ shape t = map sg out
    /\ forall f, entry t (map f out)
       = tsum (map sg cs) (fun c => fold_right (fun td acc => entry (fst td) (clip (shape (fst td)) (map (over f cs c) (snd td))) * acc) 1 ops).
Proof.
  intros Hs Ha No Hi Nc Hc. unfold jnp_einsum. set (sz := largest_size ops).
  assert (Z1 : forall l, In l (concat (map snd ops)) -> sz l = sg l) by (intros l Hl; apply largest_size_of; auto).
  assert (M : map snd (map (stretch sz) ops) = map snd ops) by (rewrite map_map; apply map_ext; intros [t d]; reflexivity).
  destruct (einsum_read (map (stretch sz) ops) out sg cs) as (t & E & S & H).
  - intros t d Hin. apply in_map_iff in Hin. destruct Hin as ([t' d'] & E & Hin). cbn [stretch] in E. injection E as <- <-. cbn [shape].
    assert (Hd : forall l, In l d' -> sz l = sg l) by (intros l Hl; apply Z1, in_concat; exists d'; split; auto; apply in_map_iff; exists (t', d'); auto).
    rewrite <- (stretched_shape sg d' (shape t')) by (apply Hs; auto). apply map_ext_in. intros [l s] Hls. cbn [fst snd].
    apply in_combine_l in Hls. destruct (s =? 1)%nat; auto.
  - auto.
  - rewrite M. auto.
  - auto.
  - rewrite M. auto.
  - exists t. split; [exact E|]. split; [exact S|]. intros f. rewrite H. apply tsum_ext. intros c _.
    clear -ops. generalize sz. intros z. induction ops as [|[t d] ops IH]; [reflexivity|]. cbn [map fold_right stretch fst snd entry]. rewrite IH. reflexivity.
Qed.
