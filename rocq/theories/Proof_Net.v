(** Generic facts about the network model: sums, induction, simulation. *)
From Coq Require Import List Arith Lia Bool Reals Lra Permutation.
From Verif Require Import Base Model_Req Model_Geom Spec_Geom Proof_Geom Model_Net Spec_Net.
Import ListNotations.
Local Open Scope R_scope.

(** ** Sums *)
Lemma lsum_ext {A} (l : list A) f g : (forall a, In a l -> f a = g a) -> lsum l f = lsum l g.
Proof.
  induction l as [|a l IH]; simpl; intros H; [reflexivity|].
  rewrite (H a), IH; auto.
Qed.

Lemma lsum_zero {A} (l : list A) f : (forall a, In a l -> f a = 0) -> lsum l f = 0.
Proof.
  induction l as [|a l IH]; simpl; intros H; [reflexivity|].
  rewrite (H a), IH; auto; lra.
Qed.

Lemma lsum_nonneg {A} (l : list A) f : (forall a, In a l -> 0 <= f a) -> 0 <= lsum l f.
Proof.
  induction l as [|a l IH]; simpl; intros H; [lra|].
  specialize (IH (fun b Hb => H b (or_intror Hb))).
  pose proof (H a (or_introl eq_refl)); lra.
Qed.

Lemma lsum_plus {A} (l : list A) f g : lsum l (fun a => f a + g a) = lsum l f + lsum l g.
Proof. induction l as [|a l IH]; simpl; [lra|]. rewrite IH; lra. Qed.

Lemma lsum_scale {A} (l : list A) c f : lsum l (fun a => c * f a) = c * lsum l f.
Proof. induction l as [|a l IH]; simpl; [lra|]. rewrite IH; lra. Qed.

Lemma lsum_scale_r {A} (l : list A) c f : lsum l (fun a => f a * c) = lsum l f * c.
Proof. induction l as [|a l IH]; simpl; [lra|]. rewrite IH; lra. Qed.

Lemma lsum_div {A} (l : list A) c f : lsum l (fun a => f a / c) = lsum l f / c.
Proof. unfold Rdiv; apply lsum_scale_r. Qed.

Lemma lsum_app {A} (l l' : list A) f : lsum (l ++ l') f = lsum l f + lsum l' f.
Proof. induction l as [|a l IH]; simpl; [lra|]. rewrite IH; lra. Qed.

Lemma lsum_map {A B} (h : A -> B) (l : list A) f : lsum (map h l) f = lsum l (fun a => f (h a)).
Proof. induction l as [|a l IH]; simpl; [lra|]. rewrite IH; lra. Qed.

Lemma lsum_flat_map {A B} (h : A -> list B) (l : list A) f :
  lsum (flat_map h l) f = lsum l (fun a => lsum (h a) f).
Proof. induction l as [|a l IH]; simpl; [lra|]. rewrite lsum_app, IH; lra. Qed.

Lemma lsum_const {A} (l : list A) c : lsum l (fun _ => c) = INR (length l) * c.
Proof.
  induction l as [|a l IH]; cbn [lsum length]; [simpl; lra|]. rewrite IH, S_INR; lra.
Qed.

Lemma lsum_swap {A B} (l : list A) (l' : list B) f :
  lsum l (fun a => lsum l' (fun b => f a b)) = lsum l' (fun b => lsum l (fun a => f a b)).
Proof.
  induction l as [|a l IH]; simpl.
  - rewrite lsum_zero; auto.
  - rewrite IH, lsum_plus; reflexivity.
Qed.

Lemma lsum_mult {A B} (l : list A) (l' : list B) f g :
  lsum l f * lsum l' g = lsum l (fun a => lsum l' (fun b => f a * g b)).
Proof.
  rewrite <- lsum_scale_r; apply lsum_ext; intros a _. rewrite <- lsum_scale; reflexivity.
Qed.

Lemma lsum_perm {A} (l l' : list A) f : Permutation l l' -> lsum l f = lsum l' f.
Proof. induction 1; simpl; lra. Qed.

Lemma lsum_single {A} (l : list A) (a : A) (f : A -> R) :
  NoDup l -> In a l -> (forall b, In b l -> b <> a -> f b = 0) -> lsum l f = f a.
Proof.
  induction l as [|b l IH]; simpl; intros Hnd Ha Hz; [tauto|].
  inversion Hnd as [|? ? Hb Hl]; subst.
  destruct Ha as [->|Ha].
  - rewrite lsum_zero; [lra|]. intros c Hc; apply Hz; auto. intros ->; auto.
  - rewrite IH; auto. rewrite Hz; auto; [lra|]. intros ->; auto.
Qed.

(** A double sum whose off-diagonal terms vanish. *)
Lemma lsum_diag {A} (l : list A) (f : A -> A -> R) :
  NoDup l -> (forall a b, In a l -> In b l -> a <> b -> f a b = 0) ->
  lsum l (fun a => lsum l (fun b => f a b)) = lsum l (fun a => f a a).
Proof.
  intros Hnd Hz; apply lsum_ext; intros a Ha.
  apply lsum_single; auto.
Qed.

(** ** Pointwise related covariances *)
Definition prel (P : list nat -> list loc -> list nat -> list loc -> Prop) (c c' : cov) : Prop :=
  forall bi s bi' s', P bi s bi' s' -> c bi s = c' bi' s'.

Definition orel {A} (P : A -> A -> Prop) (o o' : option A) : Prop :=
  match o, o' with Some a, Some b => P a b | None, None => True | _, _ => False end.

Lemma orel_map {A B} (P : A -> A -> Prop) (Q : B -> B -> Prop) f g o o' :
  (forall a b, P a b -> Q (f a) (g b)) -> orel P o o' -> orel Q (option_map f o) (option_map g o').
Proof. destruct o, o'; simpl; auto. Qed.

Lemma prel_sum P cs cs' : Forall2 (prel P) cs cs' -> prel P (sum_covs cs) (sum_covs cs').
Proof.
  intros H bi s bi' s' Hp; unfold sum_covs; induction H as [|c c' cs cs' Hc _ IH]; simpl; [reflexivity|].
  rewrite (Hc _ _ _ _ Hp), IH; reflexivity.
Qed.

Lemma prel_prod P cs cs' : Forall2 (prel P) cs cs' -> prel P (prod_covs cs) (prod_covs cs').
Proof.
  intros H bi s bi' s' Hp; unfold prod_covs; induction H as [|c c' cs cs' Hc _ IH]; simpl; [reflexivity|].
  rewrite (Hc _ _ _ _ Hp), IH; reflexivity.
Qed.

Lemma prel_combine P (ws : list nat) cs cs' bi s bi' s' :
  Forall2 (prel P) cs cs' -> P bi s bi' s' ->
  lsum (combine ws cs) (fun wc => snd wc bi s * INR (fst wc))
  = lsum (combine ws cs') (fun wc => snd wc bi' s' * INR (fst wc)).
Proof.
  intros H Hp; revert ws; induction H as [|c c' cs cs' Hc _ IH]; intros [|w ws]; simpl; auto.
  rewrite (Hc _ _ _ _ Hp), IH; reflexivity.
Qed.

Lemma prel_avg P ws cs cs' : Forall2 (prel P) cs cs' -> prel P (avg_covs ws cs) (avg_covs ws cs').
Proof.
  intros H bi s bi' s' Hp; unfold avg_covs. f_equal. apply (prel_combine P); auto.
Qed.

Lemma prel_fan P f ws cs cs' : Forall2 (prel P) cs cs' -> prel P (fan_cov f ws cs) (fan_cov f ws cs').
Proof. destruct f; [apply prel_sum|apply prel_prod|apply prel_avg]. Qed.

Lemma map_prel P cs cs' bi s bi' s' :
  Forall2 (prel P) cs cs' -> P bi s bi' s' ->
  map (fun c : cov => c bi s) cs = map (fun c : cov => c bi' s') cs'.
Proof.
  intros H Hp; induction H as [|c c' cs cs' Hc _ IH]; simpl; [reflexivity|].
  rewrite (Hc _ _ _ _ Hp), IH; reflexivity.
Qed.

Lemma prel_fan_ntk P f ws ns ns' ts ts' :
  Forall2 (prel P) ns ns' -> Forall2 (prel P) ts ts' ->
  prel P (fan_ntk f ws ns ts) (fan_ntk f ws ns' ts').
Proof.
  intros Hn Ht; destruct f; try (apply (prel_fan P); auto).
  intros bi s bi' s' Hp; unfold fan_ntk.
  rewrite (map_prel P ns ns' bi s bi' s'), (map_prel P ts ts' bi s bi' s'); auto.
Qed.

Lemma orel_all_some {A} (P : A -> A -> Prop) os os' :
  Forall2 (orel P) os os' -> orel (Forall2 P) (all_some os) (all_some os').
Proof.
  induction 1 as [|o o' os os' Ho _ IH]; simpl; [constructor|].
  destruct o, o'; simpl in Ho; try tauto.
  apply (orel_map (Forall2 P)); auto.
Qed.

Lemma mixed_orel {A} (P : A -> A -> Prop) os os' :
  Forall2 (orel P) os os' -> mixed os = mixed os'.
Proof.
  destruct 1 as [|o o' os os' Ho H]; [reflexivity|].
  destruct o, o'; simpl in *; try tauto.
  induction H as [|o o' os os' Ho' _ IH]; simpl; [reflexivity|].
  destruct o, o'; simpl in *; try tauto.
Qed.

Lemma Forall2_map2 {A B} (P : B -> B -> Prop) (f g : A -> B) (Q : A -> A -> Prop) l l' :
  Forall2 Q l l' -> (forall a b, Q a b -> P (f a) (g b)) -> Forall2 P (map f l) (map g l').
Proof. induction 1; simpl; auto. Qed.

Lemma forallb_rel {A} (Q : A -> A -> Prop) (f g : A -> bool) l l' :
  Forall2 Q l l' -> (forall a b, Q a b -> f a = g b) -> forallb f l = forallb g l'.
Proof. induction 1; simpl; intros H'; [reflexivity|]. rewrite (H' x y), IHForall2; auto. Qed.

(** ** Networks *)
Lemma net_ind' (P : net -> Prop) :
  (forall l, P (Leaf l)) ->
  (forall ts, Forall P ts -> P (Seq ts)) ->
  (forall f ts, Forall P ts -> P (Par f ts)) ->
  forall t, P t.
Proof.
  intros HL HS HP.
  refine (fix F (t : net) : P t := _).
  destruct t as [l|ts|f ts]; [apply HL|apply HS|apply HP];
    (induction ts as [|t ts IH]; constructor; [apply F|apply IH]).
Qed.

Fixpoint eval_seq (ts : list net) (k : sk) : result sk :=
  match ts with [] => Ok k | t :: ts' => bind (eval t k) (eval_seq ts') end.

Fixpoint eval_par (ts : list net) (k : sk) : result (list sk) :=
  match ts with
  | [] => Ok []
  | t :: ts' => bind (eval t k) (fun r => rmap (cons r) (eval_par ts' k))
  end.

Lemma eval_Leaf l k : eval (Leaf l) k = if refused (layer_req l) k then Raise ValueError else layer_fn l k.
Proof. reflexivity. Qed.

Lemma eval_Seq ts k :
  eval (Seq ts) k = if refused (net_req (Seq ts)) k then Raise ValueError else eval_seq ts k.
Proof.
  cbn [eval]. destruct (refused _ _); [reflexivity|].
  revert k; induction ts as [|t ts IH]; intros k; [reflexivity|].
  cbn [eval_seq]. destruct (eval t k); cbn [bind]; auto.
Qed.

Lemma eval_Par f ts k :
  eval (Par f ts) k = if refused (net_req (Par f ts)) k then Raise ValueError
                      else bind (eval_par ts k) (fan_in f).
Proof.
  cbn [eval]. destruct (refused _ _); [reflexivity|]. f_equal.
  induction ts as [|t ts IH]; [reflexivity|].
  cbn [eval_par]. rewrite IH; reflexivity.
Qed.

(** Related outcomes: related kernels, or the same exception. *)
Definition rres {A} (R : A -> A -> Prop) (r r' : result A) : Prop :=
  match r, r' with
  | Ok a, Ok b => R a b
  | Raise e, Raise e' => e = e'
  | _, _ => False
  end.

Lemma rres_bind {A B} (R : A -> A -> Prop) (S : B -> B -> Prop) r r' f f' :
  rres R r r' -> (forall a b, R a b -> rres S (f a) (f' b)) -> rres S (bind r f) (bind r' f').
Proof. destruct r, r'; simpl; auto; try tauto. Qed.

Lemma rres_rmap {A B} (R : A -> A -> Prop) (S : B -> B -> Prop) r r' f f' :
  rres R r r' -> (forall a b, R a b -> S (f a) (f' b)) -> rres S (rmap f r) (rmap f' r').
Proof. destruct r, r'; simpl; auto; try tauto. Qed.

(** A relation between kernels kept by every layer and by the fan-ins is kept by every
    network built from them. *)
Section Simulation.
  Variable Rel : sk -> sk -> Prop.
  Variable okl : layer -> Prop.
  Hypothesis Rel_ds : forall k k', Rel k k' -> s_ds k = s_ds k'.
  Hypothesis Rel_layer : forall l k k', okl l -> Rel k k' -> rres Rel (layer_fn l k) (layer_fn l k').
  Hypothesis Rel_fan : forall f ks ks', Forall2 Rel ks ks' -> rres Rel (fan_in f ks) (fan_in f ks').

  Lemma refused_rel r k k' : Rel k k' -> refused r k = refused r k'.
  Proof using Rel_ds. intros H; unfold refused; rewrite (Rel_ds _ _ H); reflexivity. Qed.

  Lemma eval_sim t k k' :
    Forall okl (layers t) -> Rel k k' -> rres Rel (eval t k) (eval t k').
  Proof using Rel_ds Rel_layer Rel_fan.
    revert k k'; induction t as [l|ts IH|f ts IH] using net_ind'; intros k k' Hl H.
    - rewrite !eval_Leaf, (refused_rel _ _ _ H).
      destruct (refused _ _); [reflexivity|]. apply Rel_layer; auto. inversion Hl; auto.
    - rewrite !eval_Seq, (refused_rel _ _ _ H).
      destruct (refused _ _); [reflexivity|].
      cbn [layers] in Hl. revert k k' H; induction IH as [|t ts Ht _ IHts]; intros k k' H; [exact H|].
      cbn [flat_map] in Hl. apply Forall_app in Hl as [Hl1 Hl2].
      cbn [eval_seq]. apply (rres_bind Rel); auto.
    - rewrite !eval_Par, (refused_rel _ _ _ H).
      destruct (refused _ _); [reflexivity|].
      apply (rres_bind (Forall2 Rel)); auto.
      cbn [layers] in Hl. induction IH as [|t ts Ht _ IHts]; [constructor|].
      cbn [flat_map] in Hl. apply Forall_app in Hl as [Hl1 Hl2].
      cbn [eval_par]. apply (rres_bind Rel); auto.
      intros a b Hab. apply (rres_rmap (Forall2 Rel)); auto.
  Qed.
End Simulation.
