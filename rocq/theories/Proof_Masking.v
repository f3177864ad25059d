(** Masks and shapes through networks and kernels: proofs. *)
From Coq Require Import Reals ZArith List Arith Lia Bool.
From Verif Require Import Base Tensor Reshape Model_Kernel Model_Inputs Model_Masking Spec_Masking.
Import ListNotations.

(** ** Trees *)
Lemma tree_ind' {A} (Q : tree A -> Prop) :
  (forall a, Q (Leaf a)) -> (forall l, Forall Q l -> Q (Node l)) -> forall t, Q t.
Proof.
  intros HL HN. fix IH 1. intros [a|l]; [apply HL|]. apply HN.
  induction l as [|t l IHl]; constructor; auto.
Qed.

Lemma bind_ok {A B} (r : result A) (f : A -> result B) b : bind r f = Ok b -> exists a, r = Ok a /\ f a = Ok b.
Proof. destruct r; cbn; intros; [eauto|discriminate]. Qed.
Lemma rmap_ok {A B} (f : A -> B) (r : result A) b : rmap f r = Ok b -> exists a, r = Ok a /\ b = f a.
Proof. destruct r; cbn; intros H; [injection H as <-; eauto|discriminate]. Qed.
Lemma rmap_raise {A B} (f : A -> B) (r : result A) e : rmap f r = Raise e -> r = Raise e.
Proof. destruct r; cbn; intros H; [discriminate|congruence]. Qed.
Lemma bind_raise {A B} (r : result A) (f : A -> result B) e : bind r f = Raise e -> r = Raise e \/ exists a, r = Ok a /\ f a = Raise e.
Proof. destruct r; cbn; intros H; [right; eauto|left; congruence]. Qed.

Ltac ok H :=
  match type of H with
  | bind _ _ = Ok _ => apply bind_ok in H as (? & ? & H)
  | rmap _ _ = Ok _ => apply rmap_ok in H as (? & H & ?); subst
  end.

Lemma list_rel_imp {A B} (Q Q' : A -> B -> Prop) : forall l m, Forall (fun a => forall b, Q a b -> Q' a b) l ->
  list_rel Q l m -> list_rel Q' l m.
Proof. induction l as [|a l IH]; intros [|b m] F; cbn; try easy. inversion F; subst. intros [? ?]; auto. Qed.
Lemma tree_rel_imp {A B} (Q Q' : A -> B -> Prop) : (forall a b, Q a b -> Q' a b) ->
  forall t u, tree_rel Q t u -> tree_rel Q' t u.
Proof.
  intros H. induction t as [a|l IH] using tree_ind'; intros [b|m]; cbn; try easy; auto.
  intros L. eapply list_rel_imp; [|exact L]. exact IH.
Qed.
Lemma list_rel_length {A B} (Q : A -> B -> Prop) : forall l m, list_rel Q l m -> length l = length m.
Proof. induction l as [|a l IH]; intros [|b m]; cbn; try easy. intros [_ H]. f_equal; auto. Qed.

(** A tree relation through maps on both sides. *)
Lemma tree_rel_map {A B C D} (Q : C -> D -> Prop) (f : A -> C) (g : B -> D) : forall t u,
  tree_rel (fun a b => Q (f a) (g b)) t u -> tree_rel Q (tree_map f t) (tree_map g u).
Proof.
  induction t as [a|l IH] using tree_ind'; intros [b|m]; cbn; try easy.
  revert m; induction l as [|a l IHl]; intros [|b m]; cbn; try easy. inversion IH; subst. intros [? ?]; split; auto.
Qed.
Lemma tree_rel_map_inv {A B C D} (Q : C -> D -> Prop) (f : A -> C) (g : B -> D) : forall t u,
  tree_rel Q (tree_map f t) (tree_map g u) -> tree_rel (fun a b => Q (f a) (g b)) t u.
Proof.
  induction t as [a|l IH] using tree_ind'; intros [b|m]; cbn; try easy.
  revert m; induction l as [|a l IHl]; intros [|b m]; cbn; try easy. inversion IH; subst. intros [? ?]; split; auto.
Qed.
Lemma tree_rel_eq {A} (t u : tree A) : tree_rel eq t u <-> t = u.
Proof.
  revert u; induction t as [a|l IH] using tree_ind'; intros [b|m]; cbn; split; intros H; try easy; try congruence.
  - f_equal. revert m H; induction l as [|a l IHl]; intros [|b m]; cbn; try easy. inversion IH as [|? ? H1 H2]; subst.
    intros [? ?]. f_equal; [now apply H1|auto].
  - injection H as <-. clear -IH. induction l as [|a l IHl]; cbn; auto. inversion IH as [|? ? H1 H2]; subst. split; [now apply H1|auto].
Qed.
Lemma tree_rel_map_eq {A B C} (f : A -> C) (g : B -> C) t u :
  tree_rel (fun a b => f a = g b) t u -> tree_map f t = tree_map g u.
Proof. intros H. apply tree_rel_eq. now apply tree_rel_map. Qed.
Lemma tree_rel_and {A B} (Q Q' : A -> B -> Prop) : forall t u,
  tree_rel Q t u -> tree_rel Q' t u -> tree_rel (fun a b => Q a b /\ Q' a b) t u.
Proof.
  induction t as [a|l IH] using tree_ind'; intros [b|m]; cbn; try easy.
  revert m; induction l as [|a l IHl]; intros [|b m]; cbn; try easy. inversion IH; subst. intros [? ?] [? ?]; split; auto.
Qed.
Lemma tree_rel_flip {A B} (Q : A -> B -> Prop) : forall t u, tree_rel Q t u -> tree_rel (fun b a => Q a b) u t.
Proof.
  induction t as [a|l IH] using tree_ind'; intros [b|m]; cbn; try easy.
  revert m; induction l as [|a l IHl]; intros [|b m]; cbn; try easy. inversion IH; subst. intros [? ?]; split; auto.
Qed.
Lemma tree_rel_trans {A B C} (Q : A -> B -> Prop) (Q' : B -> C -> Prop) : forall t u w,
  tree_rel Q t u -> tree_rel Q' u w -> tree_rel (fun a c => exists b, Q a b /\ Q' b c) t w.
Proof.
  induction t as [a|l IH] using tree_ind'; intros [b|m] [c|o]; cbn; try easy; eauto.
  revert m o; induction l as [|a l IHl]; intros [|b m] [|c o]; cbn; try easy. inversion IH; subst. intros [? ?] [? ?]; split; eauto.
Qed.
Lemma tree_rel_map_l {A B C} (Q : C -> B -> Prop) (f : A -> C) t (u : tree B) :
  tree_rel Q (tree_map f t) u <-> tree_rel (fun a b => Q (f a) b) t u.
Proof.
  revert u; induction t as [a|l IH] using tree_ind'; intros [b|m]; cbn; try easy.
  revert m; induction l as [|a l IHl]; intros [|b m]; cbn; try easy. inversion IH as [|? ? H1 H2]; subst.
  rewrite (H1 b). now rewrite (IHl H2 m).
Qed.
Lemma tree_rel_map_r {A B C} (Q : A -> C -> Prop) (f : B -> C) (t : tree A) u :
  tree_rel Q t (tree_map f u) <-> tree_rel (fun a b => Q a (f b)) t u.
Proof.
  revert u; induction t as [a|l IH] using tree_ind'; intros [b|m]; cbn; try easy.
  revert m; induction l as [|a l IHl]; intros [|b m]; cbn; try easy. inversion IH as [|? ? H1 H2]; subst.
  rewrite (H1 b). now rewrite (IHl H2 m).
Qed.
Lemma tree_rel_diag {A} (Q : A -> A -> Prop) (t : tree A) : (forall a, Q a a) -> tree_rel Q t t.
Proof.
  intros H. induction t as [a|l IH] using tree_ind'; cbn; auto.
  induction l as [|a l IHl]; cbn; auto. inversion IH; subst. split; auto.
Qed.

Lemma tree_rel_imp_diag {A} (Q Q' : A -> A -> Prop) (t : tree A) : (forall a, Q a a -> Q' a a) -> tree_rel Q t t -> tree_rel Q' t t.
Proof.
  intros H. induction t as [a|l IH] using tree_ind'; cbn; auto.
  induction l as [|a l IHl]; cbn; auto. inversion IH; subst. intros [? ?]; split; auto.
Qed.

(** [tree_mapM] and [tree_mapM2] relate their arguments to their results. *)
Lemma tree_mapM_rel {A B} (f : A -> result B) : forall t u, tree_mapM f t = Ok u <-> tree_rel (fun a b => f a = Ok b) t u.
Proof.
  induction t as [a|l IH] using tree_ind'; intros u; cbn [tree_mapM].
  - split; intros H. { ok H. exact H. } destruct u as [b|m]; [|easy]. cbn in H. now rewrite H.
  - split.
    + intros H. ok H. cbn. rename x into m. revert m H; induction l as [|a l IHl]; intros m H; cbn in H.
      { injection H as <-. exact I. }
      ok H. ok H. inversion IH as [|? ? H2 H3]; subst. cbn. split; [now apply H2|auto].
    + destruct u as [b|m]; [easy|]. cbn. intros H. enough (E : map_layers (tree_mapM f) l = Ok m) by (now rewrite E).
      revert m H; induction l as [|a l IHl]; intros [|b m]; cbn; try easy. inversion IH as [|? ? H2 H3]; subst.
      intros [H4 H5]. apply H2 in H4. rewrite H4. cbn. now rewrite (IHl H3 m H5).
Qed.
Lemma tree_mapM2_rel {A B C} (f : A -> B -> result C) : forall t u w, tree_mapM2 f t u = Ok w ->
  tree_rel (fun a c => exists b, f a b = Ok c) t w /\ tree_rel (fun b c => exists a, f a b = Ok c) u w /\
  tree_rel (fun _ _ => True) t u.
Proof.
  induction t as [a|l IH] using tree_ind'; intros [b|m] w; cbn [tree_mapM2]; intros H; try discriminate; ok H; cbn.
  { repeat split; eauto. }
  rename x into o. revert m o H; induction l as [|a l IHl]; intros [|b m] o H; cbn in H; try discriminate.
  { injection H as <-. easy. }
  ok H. ok H. inversion IH as [|? ? H2 H3]; subst. destruct (H2 _ _ H0) as (? & ? & ?). destruct (IHl H3 _ _ H) as (? & ? & ?).
  cbn. auto.
Qed.
(** ... three at a time. *)
Lemma tree_mapM2_rel3 {A B C D} (f : A -> B -> result C) (Q : A -> D -> Prop) (Q' : B -> D -> Prop) : forall t u w d,
  tree_mapM2 f t u = Ok w -> tree_rel Q t d -> tree_rel Q' u d ->
  tree_rel (fun c d => exists a b, f a b = Ok c /\ Q a d /\ Q' b d) w d.
Proof.
  induction t as [a|l IH] using tree_ind'; intros [b|m] w [d|n]; cbn [tree_mapM2]; intros H; try discriminate; ok H; cbn; try easy.
  { intros; eauto. }
  rename x into o. revert m o n H; induction l as [|a l IHl]; intros [|b m] o [|d n] H; cbn in H; try discriminate; try easy.
  { injection H as <-. easy. }
  ok H. ok H. inversion IH as [|? ? H2 H3]; subst. cbn. intros [? ?] [? ?]. split; eauto.
Qed.
Lemma tree_mapM_raise {A B} (f : A -> result B) e : (forall a, f a <> Raise e) -> forall t, tree_mapM f t <> Raise e.
Proof.
  intros F. induction t as [a|l IH] using tree_ind'; cbn; intros H; apply rmap_raise in H; [now apply F in H|].
  revert H; induction l as [|a l IHl]; cbn; [easy|]. inversion IH; subst. intros H. apply bind_raise in H as [H|(? & ? & H)]; [easy|].
  apply rmap_raise in H. auto.
Qed.

(** ** Masks that fit *)
Lemma mask_fits_bshape m s : mask_fits m s -> bshape (shape m) s = s.
Proof.
  unfold mask_fits, bshape. generalize (shape m) as l. intros l; revert s; induction l as [|a l IH]; intros [|b s]; cbn; try easy.
  intros [H1 H2]. rewrite IH by auto. f_equal. destruct (Nat.eqb_spec a 1); lia.
Qed.
Lemma list_rel_diag {A} (Q : A -> A -> Prop) l : (forall a, Q a a) -> list_rel Q l l.
Proof. intros H; induction l; cbn; auto. Qed.
Lemma mask_shape x m y : mask x m = Ok y -> (forall n, m = Some n -> mask_fits n (shape x)) -> shape y = shape x.
Proof.
  destruct m as [m|]; cbn; [|congruence]. unfold broadcast2. destruct (bcompat _ _); [|discriminate].
  intros H F; injection H as <-. cbn. apply mask_fits_bshape; auto.
Qed.

(** Values in step with a mask constant: masks exactly when there is one. *)
Definition okv (mc : option R) (v : aval) : Prop :=
  (forall m, mask_of mc v = Some m -> mask_fits m (shape_of v)) /\
  match v with Plain _ => True | Masked _ _ => mc <> None | MaskedTree _ _ => False end.
Definition alike (mc mc' : option R) (v v' : aval) : Prop :=
  (exists x m x' m', v = MaskedTree x m /\ v' = MaskedTree x' m') \/
  (okv mc v /\ okv mc' v' /\ shape_of v = shape_of v' /\
   forall m m', mask_of mc v = Some m -> mask_of mc' v' = Some m' -> shape m = shape m').

Lemma get_masked mc v x m : _get_masked_array mc v = Ok (x, m) -> okv mc v ->
  shape x = shape_of v /\ m = mask_of mc v.
Proof.
  unfold _get_masked_array, okv. intros H [F O]. destruct v as [a|a n|]; [| |easy]; cbn [bind] in H; apply rmap_ok in H as (y & H & E);
  injection E as -> ->; (split; [apply mask_shape in H|reflexivity]); auto.
Qed.
Lemma get_masked_tree mc v e x m : _get_masked_array mc v = Ok e -> v <> MaskedTree x m.
Proof. intros H ->. discriminate. Qed.
Lemma get_masked_nie mc v : _get_masked_array mc v <> Raise NotImplementedError.
Proof.
  unfold _get_masked_array. destruct v as [a|a n|]; cbn [bind]; try easy; intros H; apply rmap_raise in H; revert H; unfold mask.
  - destruct mc; [|easy]. unfold broadcast2. now destruct (bcompat _ _).
  - unfold broadcast2. now destruct (bcompat _ _).
Qed.
Lemma unmask_nie v : unmask v <> Raise NotImplementedError.
Proof. destruct v; cbn; try easy. unfold broadcast2. now destruct (bcompat _ _). Qed.
Lemma unmask_shape mc v x : okv mc v -> unmask v = Ok x -> shape x = shape_of v.
Proof.
  intros [F O]. destruct v as [a|a m|]; cbn; [congruence| |easy]. intros H. apply (mask_shape a (Some m)) in H; auto. Qed.
Lemma mask_of_none mc v : okv mc v -> (mask_of mc v = None <-> mc = None).
Proof. intros [F O]. destruct v, mc; cbn in *; split; try easy. Qed.
