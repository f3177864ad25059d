(** Proofs about the compiled-function cache. *)
From Coq Require Import List Arith Lia Bool String.
From Verif Require Import Base Model_JitCache.
Import ListNotations.
Local Open Scope nat_scope.
Local Open Scope list_scope.

Section Cache.
  Context {V W Fid O : Type}.
  Context (W_eqb : W -> W -> bool) (Fid_eqb : Fid -> Fid -> bool).
  Context (W_eqb_spec : forall a b, W_eqb a b = true <-> a = b)
          (Fid_eqb_spec : forall a b, Fid_eqb a b = true <-> a = b).
  Context (sem : Fid -> V -> list (arg V W) -> list (string * V) -> list (string * W) -> result O).
  Context (pmap : nat -> (V -> list V -> list (string * V) -> result O)
                  -> V -> list V -> list (string * V) -> result O).
  Context (broadcast broadcast_kw : nat -> V -> V).

  Notation run := (f_pmapped W_eqb Fid_eqb sem pmap broadcast broadcast_kw).
  Notation hist := (history W_eqb Fid_eqb sem pmap broadcast broadcast_kw).

  Lemma others_eqb_eq l l' : others_eqb W_eqb l l' = true <-> l = l'.
  Proof.
    revert l'; induction l as [|[i w] l IH]; destruct l' as [|[i' w'] l']; simpl;
      try (split; [discriminate|congruence]); try tauto.
    rewrite !andb_true_iff, Nat.eqb_eq, W_eqb_spec, IH. split; [intuition congruence|].
    intros [= -> -> ->]; auto.
  Qed.

  Lemma kw_eqb_eq l l' : kw_eqb W_eqb l l' = true <-> l = l'.
  Proof.
    revert l'; induction l as [|[i w] l IH]; destruct l' as [|[i' w'] l']; simpl;
      try (split; [discriminate|congruence]); try tauto.
    rewrite !andb_true_iff, String.eqb_eq, W_eqb_spec, IH. split; [intuition congruence|].
    intros [= -> -> ->]; auto.
  Qed.

  Lemma key_eqb_eq k k' : key_eqb W_eqb Fid_eqb k k' = true <-> k = k'.
  Proof.
    destruct k as [[[f n] o] w], k' as [[[f' n'] o'] w']; simpl.
    rewrite !andb_true_iff, Nat.eqb_eq, Fid_eqb_spec, others_eqb_eq, kw_eqb_eq.
    split; [intuition congruence|]. intros [= -> -> -> ->]; auto.
  Qed.

  (** ** The merged arguments are the given ones *)

  Fixpoint enum (i : nat) (l : list (arg V W)) : list (nat * arg V W) :=
    match l with [] => [] | a :: l' => (i, a) :: enum (S i) l' end.

  Lemma enum_snd i l : map snd (enum i l) = l.
  Proof. revert i; induction l; simpl; intros; f_equal; auto. Qed.

  Lemma enum_ge i l p : In p (enum i l) -> i <= fst p.
  Proof. revert i; induction l; simpl; intros i; [tauto|]. intros [<-|H]; simpl; auto. apply IHl in H; lia. Qed.

  Lemma insert_first (i : nat) (a : arg V W) l : (forall p, In p l -> i < fst p) -> insert_arg (i, a) l = (i, a) :: l.
  Proof.
    destruct l as [|q l]; simpl; auto. intros H. specialize (H q (or_introl eq_refl)).
    destruct (Nat.leb_spec i (fst q)); auto; lia.
  Qed.

  Lemma insert_past i (a : arg V W) l X : (forall p, In p l -> i < fst p) ->
    fold_right insert_arg ((i, a) :: X) l = (i, a) :: fold_right insert_arg X l.
  Proof.
    induction l as [|q l IH]; simpl; auto. intros H. rewrite IH by auto. simpl.
    pose proof (H q (or_introl eq_refl)). destruct (Nat.leb_spec (fst q) i); auto; lia.
  Qed.

  Lemma split_ge i args vs idxs (others : list (nat * W)) : split_args i args = (vs, idxs, others) ->
    (forall p, In p (combine idxs (map (@ANp V W) vs)) -> i <= fst p) /\ (forall p, In p others -> i <= fst p)
    /\ List.length idxs = List.length vs.
  Proof using Type. clear pmap broadcast broadcast_kw sem W_eqb_spec Fid_eqb_spec W_eqb Fid_eqb.
    revert i vs idxs others; induction args as [|a args IH]; intros i vs idxs others; simpl.
    - intros [= <- <- <-]; repeat split; simpl; tauto.
    - destruct (split_args (S i) args) as [[vs' idxs'] others'] eqn:E.
      destruct (IH _ _ _ _ E) as (H1 & H2 & H3).
      destruct a; intros [= <- <- <-]; simpl; repeat split; auto.
      + intros p [<-|H]; simpl; auto. apply H1 in H; lia.
      + intros p H; apply H2 in H; lia.
      + intros p H; apply H1 in H; lia.
      + intros p [<-|H]; simpl; auto. apply H2 in H; lia.
  Qed.

  Lemma map_combine_ANp (idxs : list nat) (vs : list V) :
    map (fun p => (fst p, @ANp V W (snd p))) (combine idxs vs) = combine idxs (map (@ANp V W) vs).
  Proof. revert vs; induction idxs; destruct vs; simpl; f_equal; auto. Qed.

  Lemma merge_back (f : V -> V) i args vs idxs (others : list (nat * W)) :
    split_args i args = (vs, idxs, others) ->
    sort_args (map (fun p => (fst p, @ANp V W (snd p))) (combine idxs (map f vs))
               ++ map (fun p => (fst p, @AOther V W (snd p))) others)
    = enum i (map (fun a => match a with ANp v => ANp (f v) | AOther w => AOther w end) args).
  Proof.
    rewrite map_combine_ANp.
    revert i vs idxs others; induction args as [|a args IH]; intros i vs idxs others; simpl.
    - intros [= <- <- <-]; reflexivity.
    - destruct (split_args (S i) args) as [[vs' idxs'] others'] eqn:E.
      pose proof (IH _ _ _ _ E) as Q. destruct (split_ge _ _ _ _ _ E) as (G1 & G2 & G3).
      destruct a; intros [= <- <- <-]; simpl.
      + unfold sort_args in *. rewrite Q. apply insert_first. intros p Hp; apply enum_ge in Hp; lia.
      + unfold sort_args in *. rewrite fold_right_app in *. simpl.
        rewrite insert_first.
        * rewrite insert_past, Q; auto.
          intros p Hp. assert (In (fst p) idxs') as Hi by (destruct p; apply in_combine_l in Hp; auto).
          clear - Hi G1 G3. revert vs' G1 G3. induction idxs' as [|x idxs' IHx]; simpl in *; [tauto|].
          intros [|v vs'] G1 G3; simpl in *; [discriminate|]. destruct Hi as [<-|Hi].
          -- specialize (G1 _ (or_introl eq_refl)); simpl in G1; lia.
          -- apply (IHx Hi vs'); auto.
        * intros p Hp. clear - Hp G2.
          assert (forall l, (forall q, In q l -> i < fst q) -> In p (fold_right insert_arg [] l) -> i < fst p) as X.
          { induction l as [|q l IHl]; simpl; [tauto|]. intros Hq H.
            assert (forall (q : nat * arg V W) l p, In p (insert_arg q l) -> p = q \/ In p l) as Y.
            { clear. intros q l; induction l as [|r l IH]; simpl; [intuition|].
              intros p. destruct (fst q <=? fst r); simpl; [intuition|]. intros [<-|H]; auto. destruct (IH _ H); auto. }
            apply Y in H. destruct H as [->|H]; auto. }
          apply (X (map (fun p => (fst p, @AOther V W (snd p))) others')); auto.
          intros q Hq; apply in_map_iff in Hq; destruct Hq as (o & <- & Ho). apply G2 in Ho; simpl; lia.
  Qed.

  Definition idxs_of (p : pcall V W Fid) : list nat := snd (fst (split_args 0 (p_args p))).
  Definition key_of (p : pcall V W Fid) : key :=
    (p_f p, p_dc p, snd (split_args 0 (p_args p)), p_kwother p).

  (** With an empty cache and no [pmap] the function is called as given. *)
  Lemma fresh_call p : p_dc p = 0 ->
    snd (run [] p) = sem (p_f p) (p_x p) (p_args p) (p_kwnp p) (p_kwother p).
  Proof.
    unfold f_pmapped; intros Hdc.
    destruct (split_args 0 (p_args p)) as [[vs idxs] others] eqn:E.
    simpl. unfold run_closure, closure_fn; simpl. rewrite Hdc; simpl.
    rewrite (merge_back (bc broadcast 0) _ _ _ _ _ E), enum_snd.
    f_equal.
    - transitivity (map (fun a => a) (p_args p)); [|apply map_id]. apply map_ext; intros []; reflexivity.
    - transitivity (map (fun a => a) (p_kwnp p)); [|apply map_id]. apply map_ext; intros []; reflexivity.
  Qed.

  (** ** Transparency *)

  Definition from (l : list (pcall V W Fid)) (e : key * closure W Fid) : Prop :=
    exists p, In p l /\ fst e = key_of p
      /\ snd e = mkClo (p_f p) (p_dc p) (idxs_of p) (snd (split_args 0 (p_args p))) (p_kwother p).

  Lemma lookup_in c k clo : lookup W_eqb Fid_eqb c k = Some clo -> In (k, clo) c.
  Proof.
    induction c as [|[k' clo'] c IH]; simpl; [discriminate|].
    destruct (key_eqb W_eqb Fid_eqb k k') eqn:E; auto.
    apply key_eqb_eq in E as ->. intros [= <-]; auto.
  Qed.

  Lemma run_from l c p : (forall e, In e c -> from l e) -> forall e, In e (fst (run c p)) -> from (l ++ [p]) e.
  Proof.
    intros H e. unfold f_pmapped.
    destruct (split_args 0 (p_args p)) as [[vs idxs] others] eqn:E.
    assert (forall e, In e c -> from (l ++ [p]) e) as H'.
    { intros e0 He. destruct (H e0 He) as (q & Hq & ?). exists q; split; auto. apply in_or_app; auto. }
    destruct (lookup W_eqb Fid_eqb c _) as [clo|] eqn:El; simpl; auto.
    intros [<-|He]; auto. exists p; split; [apply in_or_app; simpl; auto|].
    unfold key_of, idxs_of; rewrite E; simpl; auto.
  Qed.

  Lemma hist_from l : forall e, In e (hist l) -> from l e.
  Proof.
    unfold history. induction l as [|p l IH] using rev_ind; simpl; [tauto|].
    rewrite fold_left_app; simpl. apply run_from; auto.
  Qed.

  (** Calls with the same key have their arrays in the same positions. *)
  Definition consistent (l : list (pcall V W Fid)) : Prop :=
    forall p q, In p l -> In q l -> key_of p = key_of q -> idxs_of p = idxs_of q.

  Theorem transparent l p : consistent (l ++ [p]) -> snd (run (hist l) p) = snd (run [] p).
  Proof.
    intros H. unfold f_pmapped.
    destruct (split_args 0 (p_args p)) as [[vs idxs] others] eqn:E. simpl.
    destruct (lookup W_eqb Fid_eqb (hist l) _) as [clo|] eqn:El; simpl; auto.
    apply lookup_in, hist_from in El. destruct El as (q & Hq & Ek & Ec). simpl in Ek, Ec.
    assert (idxs = idxs_of q) as Ei.
    { transitivity (idxs_of p); [unfold idxs_of; now rewrite E|].
      apply H; [apply in_or_app; simpl; auto|apply in_or_app; auto|].
      rewrite <- Ek. unfold key_of; now rewrite E. }
    unfold key_of in Ek. injection Ek as -> -> -> ->. rewrite Ec, Ei. reflexivity.
  Qed.

  (** Calls with equally many positional arguments are consistent. *)
  Lemma others_determine i (args args' : list (arg V W)) vs idxs (others : list (nat * W)) vs' idxs' :
    split_args i args = (vs, idxs, others) -> split_args i args' = (vs', idxs', others) ->
    List.length args = List.length args' -> idxs = idxs'.
  Proof using Type. clear pmap broadcast broadcast_kw sem W_eqb_spec Fid_eqb_spec W_eqb Fid_eqb.
    revert i args' vs idxs others vs' idxs'; induction args as [|a args IH]; destruct args' as [|a' args'];
      intros vs idxs others vs' idxs'; simpl; try discriminate.
    - intros [= <- <- <-] [= <- <-]; auto.
    - destruct (split_args (S i) args) as [[v1 i1] o1] eqn:E1.
      destruct (split_args (S i) args') as [[v2 i2] o2] eqn:E2.
      destruct (split_ge _ _ _ _ _ E1) as (_ & G1 & _). destruct (split_ge _ _ _ _ _ E2) as (_ & G2 & _).
      destruct a, a'; intros P Q L; injection P as <- <- P; injection Q as <- <- Q; injection L as L; subst.
      + f_equal. eapply IH; eauto.
      + specialize (G1 _ (or_introl eq_refl)); simpl in G1; lia.
      + specialize (G2 _ (or_introl eq_refl)); simpl in G2; lia.
      + injection Q as -> ->. eapply IH; eauto.
  Qed.

  Lemma fixed_arity_consistent n l : (forall p, In p l -> List.length (p_args p) = n) -> consistent l.
  Proof using Type. clear pmap broadcast broadcast_kw sem W_eqb_spec Fid_eqb_spec W_eqb Fid_eqb.
    intros H p q Hp Hq. unfold key_of, idxs_of.
    destruct (split_args 0 (p_args p)) as [[v1 i1] o1] eqn:E1.
    destruct (split_args 0 (p_args q)) as [[v2 i2] o2] eqn:E2. simpl.
    intros [= _ _ <- _]. eapply others_determine; eauto. rewrite (H p), (H q); auto.
  Qed.
End Cache.
