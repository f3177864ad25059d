(** Proofs: the caches of ensemble predictions (C50). *)
From Coq Require Import List Arith Lia Bool Reals Lra.
From Verif Require Import Base Model_Net Model_Predict Model_Ensemble Spec_Ensemble.
Import ListNotations.
Local Open Scope R_scope.

Lemma mode_eqb_spec a b : mode_eqb a b = true <-> a = b.
Proof. destruct a, b; cbn; split; congruence. Qed.
Lemma modes_eqb_spec a b : modes_eqb a b = true <-> a = b.
Proof.
  revert b. induction a as [|x a IH]; intros [|z b]; cbn; try (split; congruence). rewrite andb_true_iff, mode_eqb_spec, IH.
  split; [intros [-> ->]; auto|intros [= -> ->]; auto].
Qed.

Section Lru.
  Context {K V : Type}.
  Variable eqb : K -> K -> bool.
  Hypothesis Heq : forall a b, eqb a b = true <-> a = b.
  Lemma find_firstn s k (v : V) l : lru_find eqb k (firstn s l) = Some v -> lru_find eqb k l = Some v.
  Proof.
    revert s. induction l as [|[k' v'] l IH]; intros [|s]; cbn; try discriminate. destruct (eqb k k'); auto. apply IH.
  Qed.
  Lemma find_remove k k' (l : list (K * V)) v : lru_find eqb k (lru_remove eqb k' l) = Some v -> lru_find eqb k l = Some v.
  Proof.
    induction l as [|[k0 v0] l IH]; cbn; [discriminate|]. destruct (eqb k' k0) eqn:E; cbn.
    - intros H. destruct (eqb k k0) eqn:E'; auto. apply Heq in E, E'. subst. exfalso. clear IH. revert H.
      induction l as [|[k1 v1] l IH]; cbn; [discriminate|]. destruct (eqb k0 k1) eqn:E1; cbn; auto. rewrite E1. auto.
    - destruct (eqb k k0); auto.
  Qed.
  Lemma find_put s k k' (v w : V) l : lru_find eqb k (lru_put eqb s k' v l) = Some w -> (k = k' /\ w = v) \/ lru_find eqb k l = Some w.
  Proof.
    unfold lru_put. intros H. apply find_firstn in H. cbn in H. destruct (eqb k k') eqn:E; [left; apply Heq in E; split; congruence|].
    right. eapply find_remove, H.
  Qed.
End Lru.

Section Cache.
  Context {X : Type}.
  Variable eigh : nat -> mat -> eig.
  Variable cho_solve : nat -> mat -> vec -> vec.
  Variable kernel_dd : list mode -> mode -> mat.
  Variable kernel_td : X -> list mode -> mode -> mat.
  Variable kernel_tt : X -> mat.
  Variable n c : nat.
  Variable y : mat.
  Variable lr reg : R.
  Variable ab : bool.
  Variable K_dd : mode -> mat.
  Variable K_td : X -> mode -> mat.
  Hypothesis Hdd : consistent kernel_dd K_dd.
  Hypothesis Htd : forall x, consistent (kernel_td x) (K_td x).
  Notation predict := (predict_fn eigh cho_solve kernel_dd kernel_td kernel_tt n c y lr reg ab).
  Notation direct := (direct eigh cho_solve K_dd K_td kernel_tt n c y lr reg ab).
  Notation direct_one := (direct_one eigh cho_solve K_dd K_td kernel_tt n c y lr reg ab).
  Notation eig_of g := (eigh n (add_diagonal_regularizer n (K_dd g) reg ab)).

  Definition holds (o : option mat) (k : mat) := o = None \/ o = Some k.
  Record good (st : caches) : Prop := {
    g_nngp : holds (cd_nngp st) (K_dd Nngp);
    g_ntk : holds (cd_ntk st) (K_dd Ntk);
    g_eig : forall g e, lru_find mode_eqb g (eig_cache st) = Some e -> g <> Ntkgp /\ e = eig_of g;
    g_inf : forall get k, lru_find modes_eqb get (inf_cache st) = Some k -> exists a b, k = Named a b /\ holds a (K_dd Nngp) /\ holds b (K_dd Ntk)
      /\ (In Nngp get -> a = Some (K_dd Nngp)) /\ (In Ntk get -> b = Some (K_dd Ntk)) }.
  (** The closure for ['ntk'] has the NNGP kernel. *)
  Definition full (st : caches) : Prop := forall k, lru_find modes_eqb [Ntk] (inf_cache st) = Some k -> exists b, k = Named (Some (K_dd Nngp)) b.

  Lemma good_none : good no_caches.
  Proof. constructor; cbn; try (now left); discriminate. Qed.
  Lemma full_none : full no_caches.
  Proof. intros k. discriminate. Qed.

  Lemma put_good st g k : g <> Ntkgp -> k = K_dd g -> good st -> good (put st g k).
  Proof. intros Hg -> [H1 H2 H3 H4]. destruct g; [| |congruence]; constructor; cbn; auto; right; auto. Qed.
  Lemma put_eig st g k : eig_cache (put st g k) = eig_cache st. Proof. destruct g; reflexivity. Qed.
  Lemma put_inf st g k : inf_cache (put st g k) = inf_cache st. Proof. destruct g; reflexivity. Qed.

  (** What [get_k_train_train] does for valid requests. *)
  Lemma dd_ok dep st : valid_get dep -> good st -> exists st', get_k_train_train kernel_dd dep st = (Ok (as_kernel st'), st')
    /\ good st' /\ eig_cache st' = eig_cache st /\ inf_cache st' = inf_cache st
    /\ (In Nngp dep \/ cd_nngp st <> None -> cd_nngp st' = Some (K_dd Nngp)) /\ (In Ntk dep \/ cd_ntk st <> None -> cd_ntk st' = Some (K_dd Ntk)).
  Proof.
    intros Hv HG. pose proof HG as [Hn Ht H3 H4].
    pose proof (Hdd [Nngp] Nngp (or_introl eq_refl)) as E1. pose proof (Hdd [Ntk] Ntk (or_introl eq_refl)) as E2.
    pose proof (Hdd [Nngp; Ntk] Nngp (or_introl eq_refl)) as E3. pose proof (Hdd [Nngp; Ntk] Ntk (or_intror (or_introl eq_refl))) as E4.
    pose proof (Hdd [Ntk; Nngp] Nngp (or_intror (or_introl eq_refl))) as E5. pose proof (Hdd [Ntk; Nngp] Ntk (or_introl eq_refl)) as E6.
    destruct st as [a b ec ic]. cbn in Hn, Ht. cbn [eig_cache inf_cache] in H3, H4.
    destruct Hv as [-> | [-> | [-> | ->]]]; destruct Hn as [-> | ->]; destruct Ht as [-> | ->]; cbn -[In];
      (eexists; split; [reflexivity|]; cbn -[In]; rewrite ?E1, ?E2, ?E3, ?E4, ?E5, ?E6; split; [constructor; cbn -[In]; auto; try (right; reflexivity); try (left; reflexivity)|];
       do 2 (split; [reflexivity|]); split; intros [H|H]; auto; try congruence; cbn in H; intuition congruence).
  Qed.

  Lemma dep_valid get cov dep : valid_get get -> get_dependency get cov = Ok dep -> valid_get dep /\ (forall g, In g get -> In g dep) /\ (cov = true -> In Nngp dep) /\ ~ In Ntkgp dep.
  Proof.
    unfold valid_get. intros [-> | [-> | [-> | ->]]]; destruct cov; cbn; intros [= <-]; (split; [auto|]); cbn; intuition congruence.
  Qed.
  Lemma dep_ok get cov : valid_get get -> exists dep, get_dependency get cov = Ok dep.
  Proof. intros [-> | [-> | [-> | ->]]]; destruct cov; cbn; eauto. Qed.

  Lemma eig_ok g st : g <> Ntkgp -> good st -> exists st', eigenspace eigh kernel_dd n reg ab g st = (Ok (eig_of g), st')
    /\ good st' /\ inf_cache st' = inf_cache st.
  Proof.
    intros Hg HG. unfold eigenspace. destruct (lru_find mode_eqb g (eig_cache st)) as [e|] eqn:E.
    - destruct (g_eig st HG g e E) as [_ ->]. eexists. split; [reflexivity|]. split; [|reflexivity]. destruct HG as [H1 H2 H3 H4]. constructor; cbn [cd_nngp cd_ntk eig_cache inf_cache]; auto.
      intros g' e' H. apply (find_put _ mode_eqb_spec) in H. destruct H as [[-> ->]|H]; auto.
    - destruct (dd_ok [g] st) as (st' & -> & HG' & E1 & E2 & Hn & Ht); auto.
      { unfold valid_get. destruct g; auto. congruence. }
      assert (bind (Ok (as_kernel st')) (fun k => get_attr k g) = Ok (K_dd g)) as ->.
      { destruct g; [| |congruence]; cbn; [rewrite Hn by (left; left; auto)|rewrite Ht by (left; left; auto)]; auto; destruct (cd_nngp st'); auto. }
      eexists. split; [reflexivity|]. split; [|exact E2]. destruct HG' as [H1 H2 H3 H4]. constructor; cbn [cd_nngp cd_ntk eig_cache inf_cache]; auto.
      intros g' e' H. apply (find_put _ mode_eqb_spec) in H. destruct H as [[-> ->]|H]; auto.
  Qed.

  Lemma inf_ok get st : valid_get get -> good st -> exists k st', predict_inf_cached kernel_dd get st = (Ok k, st')
    /\ good st' /\ (exists a b, k = Named a b /\ holds a (K_dd Nngp) /\ holds b (K_dd Ntk)
       /\ (In Nngp get -> a = Some (K_dd Nngp)) /\ (In Ntk get -> b = Some (K_dd Ntk)))
    /\ (full st -> cd_nngp st = Some (K_dd Nngp) -> exists b, get = [Ntk] -> k = Named (Some (K_dd Nngp)) b)
    /\ (full st -> get = [Ntk] -> cd_nngp st = Some (K_dd Nngp) -> full st')
    /\ (full st -> get <> [Ntk] -> full st').
  Proof.
    intros Hv HG. unfold predict_inf_cached. destruct (lru_find modes_eqb get (inf_cache st)) as [k|] eqn:E.
    - exists k. eexists. split; [reflexivity|]. destruct (g_inf st HG get k E) as (a & b & -> & H).
      assert (full st -> full (mkCaches (cd_nngp st) (cd_ntk st) (eig_cache st) (lru_put modes_eqb 4 get (Named a b) (inf_cache st)))) as HF.
      { intros HF k Hk. cbn [inf_cache] in Hk. apply (find_put _ modes_eqb_spec) in Hk. destruct Hk as [[<- ->]|Hk]; apply HF; auto. }
      split; [destruct HG as [H1 H2 H3 H4]; constructor; cbn [cd_nngp cd_ntk eig_cache inf_cache]; auto; intros g' e' Hf; apply (find_put _ modes_eqb_spec) in Hf; destruct Hf as [[-> ->]|Hf]; eauto|].
      split; [eauto|]. split; [|split; auto]. intros HF' _. destruct (modes_eqb get [Ntk]) eqn:E'.
      + apply modes_eqb_spec in E'. subst. destruct (HF' _ E) as (b' & Eb). exists b'. auto.
      + exists b. intros ->. discriminate.
    - destruct (dd_ok get st Hv HG) as (st' & E0 & HG' & E1 & E2 & Hn & Ht). rewrite E0. exists (as_kernel st'). eexists. split; [reflexivity|].
      split; [destruct HG' as [H1 H2 H3 H4]; constructor; cbn [cd_nngp cd_ntk eig_cache inf_cache]; auto; intros g' e' Hf; apply (find_put _ modes_eqb_spec) in Hf; destruct Hf as [[-> ->]|Hf]; [|eauto]|].
      { exists (cd_nngp st'), (cd_ntk st'). split; [reflexivity|]. split; [auto|]. split; [auto|]. split; intros Hi; [apply Hn|apply Ht]; left; exact Hi. }
      split; [exists (cd_nngp st'), (cd_ntk st'); split; [reflexivity|]; destruct HG'; split; [auto|]; split; [auto|]; split; intros Hi; [apply Hn|apply Ht]; left; exact Hi|].
      assert (cd_nngp st = Some (K_dd Nngp) -> cd_nngp st' = Some (K_dd Nngp)) as Hkeep by (intros H; apply Hn; right; congruence).
      split; [|split].
      + intros _ H. exists (cd_ntk st'). intros _. unfold as_kernel. rewrite (Hkeep H). auto.
      + intros HF -> H k Hk. cbn [inf_cache] in Hk. apply (find_put _ modes_eqb_spec) in Hk. destruct Hk as [[_ ->]|Hk]; [|rewrite E2 in Hk; auto].
        exists (cd_ntk st'). unfold as_kernel. rewrite (Hkeep H). auto.
      + intros HF Hne k Hk. cbn [inf_cache] in Hk. apply (find_put _ modes_eqb_spec) in Hk. destruct Hk as [[H _]|Hk]; [congruence|rewrite E2 in Hk; auto].
  Qed.

  (** Finite times *)
  Lemma named_attr dep f g : In g dep -> g <> Ntkgp -> get_attr (named dep f) g = Ok (f g).
  Proof.
    intros Hin Hg. unfold named. assert (mode_in g dep = true) as E by (apply existsb_exists; exists g; split; auto; apply mode_eqb_spec; auto).
    destruct g; [| |congruence]; cbn; rewrite E; auto.
  Qed.

  Lemma finite_one_ok t x cov get dep g st : valid_get get -> get_dependency get cov = Ok dep -> In g get -> cd_nngp st = Some (K_dd Nngp) \/ cov = false ->
    finite_one n c y (t * lr) g (as_kernel st)
      (match x with None => None | Some x => Some (named dep (kernel_td x dep)) end)
      (if cov then match x with None => Some None | Some x => Some (Some (Arr (kernel_tt x))) end else None) (eig_of g)
    = direct_one (Some t) x cov g.
  Proof.
    intros Hv Hdep Hin Hn. destruct (dep_valid get cov dep Hv Hdep) as (Hvd & Hsub & Hcov & Hgp).
    assert (g <> Ntkgp) as Hg by (intros ->; apply Hgp, Hsub; auto).
    unfold finite_one, Spec_Ensemble.direct_one. destruct x as [x|].
    - rewrite named_attr by auto. cbn [rmap bind option_map]. rewrite (Htd x dep g) by auto. destruct cov; [|reflexivity].
      destruct Hn as [Hn|Hn]; [|discriminate]. cbn [as_kernel get_attr]. rewrite Hn. cbn [bind].
      rewrite (named_attr dep _ Nngp) by (auto; congruence). rewrite (Htd x dep Nngp) by auto.
      destruct g; [| |congruence]; reflexivity.
    - cbn [rmap bind option_map]. destruct cov; [|reflexivity]. destruct Hn as [Hn|Hn]; [|discriminate]. cbn [as_kernel get_attr]. rewrite Hn. cbn [bind]. reflexivity.
  Qed.

  Lemma finite_all_ok t x cov get dep k0 : valid_get get -> get_dependency get cov = Ok dep -> cd_nngp k0 = Some (K_dd Nngp) \/ cov = false ->
    forall gs st, (forall g, In g gs -> In g get) -> good st -> exists st',
    finite_all eigh kernel_dd n c y reg ab (t * lr) gs (as_kernel k0)
      (match x with None => None | Some x => Some (named dep (kernel_td x dep)) end)
      (if cov then match x with None => Some None | Some x => Some (Some (Arr (kernel_tt x))) end else None) st
    = (direct (Some t) x cov gs, st') /\ good st' /\ inf_cache st' = inf_cache st.
  Proof.
    intros Hv Hdep Hn. induction gs as [|g gs IH]; intros st Hsub HG; [eexists; split; [reflexivity|split; auto]|].
    cbn [finite_all Spec_Ensemble.direct].
    assert (g <> Ntkgp) as Hg. { destruct (dep_valid get cov dep Hv Hdep) as (_ & H & _ & Hgp). intros ->. apply Hgp, H, Hsub. left; auto. }
    destruct (eig_ok g st Hg HG) as (st1 & -> & HG1 & Ei). cbn [bind].
    rewrite (finite_one_ok t x cov get dep g k0) by (auto; apply Hsub; left; auto).
    destruct (direct_one (Some t) x cov g) as [o|ex]; [|eexists; split; [reflexivity|split; auto]].
    destruct (IH st1) as (st2 & -> & HG2 & Ei2); [intros; apply Hsub; right; auto|auto|].
    eexists. split; [reflexivity|]. split; auto. congruence.
  Qed.

  (** Infinite time: only the fields of [get], and for covariances of ['ntk'] the NNGP kernel, are used. *)
  Lemma gp_one_ok x cov get dep g a b : valid_get get -> get_dependency get cov = Ok dep -> In g get ->
    (In Nngp get -> a = Some (K_dd Nngp)) -> (In Ntk get -> b = Some (K_dd Ntk)) -> (x = None \/ cov = false \/ a = Some (K_dd Nngp)) ->
    rmap (fun r => mkOutput (Some (mean r)) (option_map Some (covariance r)))
      (gp_predict cho_solve n (Named a b) y reg ab g
      (match x with None => None | Some x => Some (named dep (kernel_td x dep)) end)
      (if cov then match x with None => Some None | Some x => Some (Some (Arr (kernel_tt x))) end else None))
    = direct_one None x cov g.
  Proof.
    intros Hv Hdep Hin Ha Hb Hx. destruct (dep_valid get cov dep Hv Hdep) as (Hvd & Hsub & Hcov & Hgp).
    unfold Spec_Ensemble.direct_one, gp_predict. 
    assert (get_attr (Named a b) g = Ok (K_dd g)) as E1.
    { destruct g; cbn; [rewrite Ha by auto; auto|rewrite Hb by auto; destruct a; auto|exfalso; apply Hgp, Hsub; auto]. }
    assert (forall x, get_attr (named dep (kernel_td x dep)) g = Ok (K_td x g)) as E2.
    { intros x0. rewrite named_attr, (Htd x0 dep g); auto. intros ->. apply Hgp, Hsub; auto. }
    destruct g; [| |exfalso; apply Hgp, Hsub; auto]; rewrite E1; cbn [bind get_attr]; destruct x as [x|]; cbn [option_map].
    - rewrite E2. cbn [bind get_attr]. destruct cov; [|reflexivity]. rewrite ?E2; cbn [bind get_attr]; reflexivity.
    - destruct cov; reflexivity.
    - rewrite E2. cbn [bind get_attr]. destruct cov; [|reflexivity]. destruct Hx as [Hx|[Hx| ->]]; try discriminate.
      rewrite named_attr, (Htd x dep Nngp) by (auto; congruence). cbn [has_nngp named negb orb bind get_attr]. reflexivity.
    - destruct cov; reflexivity.
  Qed.

  Lemma gp_all_ok x cov get dep a b : valid_get get -> get_dependency get cov = Ok dep ->
    (In Nngp get -> a = Some (K_dd Nngp)) -> (In Ntk get -> b = Some (K_dd Ntk)) -> (x = None \/ cov = false \/ a = Some (K_dd Nngp)) ->
    forall gs, (forall g, In g gs -> In g get) ->
    gp_all cho_solve n y reg ab (Named a b) gs
      (match x with None => None | Some x => Some (named dep (kernel_td x dep)) end)
      (if cov then match x with None => Some None | Some x => Some (Some (Arr (kernel_tt x))) end else None)
    = direct None x cov gs.
  Proof.
    intros Hv Hdep Ha Hb Hx. induction gs as [|g gs IH]; intros Hsub; [reflexivity|]. cbn [gp_all Spec_Ensemble.direct].
    rewrite <- (gp_one_ok x cov get dep g a b) by (auto; apply Hsub; left; auto).
    destruct (gp_predict _ _ _ _ _ _ _ _ _) as [r|ex]; [|reflexivity]. cbn [rmap bind]. rewrite IH; [reflexivity|]. intros; apply Hsub; right; auto.
  Qed.

  (** One call *)
  Theorem call_ok a st : valid_get (a_get a) -> good st -> (full st \/ ~ spoiled a) ->
    exists st', predict a st = (direct (a_t a) (a_x_test a) (a_cov a) (a_get a), st') /\ good st' /\ (full st -> ~ spoils a -> full st').
  Proof.
    intros Hv HG HF. destruct a as [t x get cov]. cbn [a_get a_t a_x_test a_cov] in *. unfold predict_fn, get_kernels. cbn [a_get a_t a_x_test a_cov].
    destruct (dep_ok get cov Hv) as (dep & Hdep). rewrite Hdep.
    destruct (dep_valid get cov dep Hv Hdep) as (Hvd & Hsub & Hcov & Hgp).
    destruct (dd_ok dep st Hvd HG) as (st1 & -> & HG1 & E1 & E2 & Hn & Ht). cbn [rmap].
    assert (full st -> full st1) as HF1 by (intros H k Hk; rewrite E2 in Hk; auto).
    assert (cov = true -> cd_nngp st1 = Some (K_dd Nngp)) as Hc by (intros; apply Hn; left; auto).
    destruct t as [t|].
    - destruct (finite_all_ok t x cov get dep st1 Hv Hdep) with (gs := get) (st := st1) as (st2 & -> & HG2 & Ei); auto; [destruct cov; auto|].
      exists st2. split; auto. split; auto. intros H _ k Hk. rewrite Ei in Hk. apply HF1 in Hk; auto.
    - destruct (inf_ok get st1 Hv HG1) as (k & st2 & -> & HG2 & (a & b & -> & Ha0 & Hb0 & Ha & Hb) & K1 & K2 & K3). exists st2. cbn [bind].
      assert (x = None \/ cov = false \/ a = Some (K_dd Nngp)) as Hx.
      { destruct x as [x|]; auto. right. destruct cov; auto. right.
        assert (get = [Ntk] \/ In Nngp get) as [-> |Hi] by (destruct Hv as [-> | [-> | [-> | ->]]]; cbn; auto); [|apply Ha; auto].
        destruct HF as [HF|HF]; [|exfalso; apply HF; repeat split; auto; discriminate].
        destruct (K1 (HF1 HF) (Hc eq_refl)) as (b' & Eb). specialize (Eb eq_refl). congruence. }
      split; [rewrite (gp_all_ok x cov get dep a b Hv Hdep Ha Hb Hx get) by auto; reflexivity|]. split; auto.
      intros H Hs. destruct (modes_eqb get [Ntk]) eqn:E.
      + apply modes_eqb_spec in E. subst. apply K2; auto. apply Hc. destruct cov; auto. exfalso. apply Hs. repeat split; auto.
      + apply K3; auto. intros ->. discriminate.
  Qed.

  Lemma invalid_call a st : In Ntkgp (a_get a) -> predict a st = (Raise NotImplementedError, st).
  Proof.
    intros H. unfold predict_fn, get_kernels, get_dependency.
    assert (mode_in Ntkgp (a_get a) = true) as -> by (apply existsb_exists; exists Ntkgp; auto). reflexivity.
  Qed.

  Definition allowed (a : @call X) : Prop := valid_get (a_get a) \/ In Ntkgp (a_get a).
  Notation after := (after eigh cho_solve kernel_dd kernel_td kernel_tt n c y lr reg ab).

  (** A spoiled call may raise, but it leaves good caches. *)
  Lemma call_good a st : allowed a -> good st -> good (snd (predict a st)).
  Proof.
    intros [Hv|Hi] HG; [|rewrite invalid_call by auto; auto].
    destruct a as [t x get cov]. cbn [a_get] in *. unfold predict_fn, get_kernels. cbn [a_get a_t a_x_test a_cov].
    destruct (dep_ok get cov Hv) as (dep & Hdep). rewrite Hdep.
    destruct (dep_valid get cov dep Hv Hdep) as (Hvd & Hsub & Hcov & Hgp).
    destruct (dd_ok dep st Hvd HG) as (st1 & -> & HG1 & E1 & E2 & Hn & Ht). cbn [rmap]. destruct t as [t|].
    - destruct (finite_all_ok t x cov get dep st1 Hv Hdep) with (gs := get) (st := st1) as (st2 & -> & HG2 & Ei); auto. destruct cov; auto.
    - destruct (inf_ok get st1 Hv HG1) as (k & st2 & -> & HG2 & _). auto.
  Qed.

  Lemma after_snoc h a : after (h ++ [a]) = snd (predict a (after h)).
  Proof. unfold Model_Ensemble.after. rewrite fold_left_app. reflexivity. Qed.

  Lemma after_good h : Forall allowed h -> good (after h) /\ (Forall (fun a => ~ spoils a) h -> full (after h)).
  Proof.
    induction h as [|a h IH] using rev_ind; intros H; [split; intros; [apply good_none|apply full_none]|].
    apply Forall_app in H. destruct H as [Hh Ha]. inversion_clear Ha as [|? ? Ha' _]. destruct (IH Hh) as [HG HF]. rewrite after_snoc.
    split; [apply call_good; auto|]. intros Hs. apply Forall_app in Hs. destruct Hs as [Hs Hsa]. inversion_clear Hsa as [|? ? Hsa' _].
    destruct Ha' as [Hv|Hi]; [|rewrite invalid_call by auto; auto].
    destruct (call_ok a (after h) Hv HG (or_introl (HF Hs))) as (st' & -> & _ & HF'). cbn. auto.
  Qed.

  (** Results do not depend on the history. *)
  Theorem history_independent h a : Forall allowed h -> valid_get (a_get a) -> ~ spoiled a \/ Forall (fun b => ~ spoils b) h ->
    fst (predict a (after h)) = direct (a_t a) (a_x_test a) (a_cov a) (a_get a).
  Proof.
    intros Hh Hv Hs. destruct (after_good h Hh) as [HG HF].
    destruct (call_ok a (after h) Hv HG) as (st' & -> & _); [destruct Hs; auto|reflexivity].
  Qed.
  Theorem history_invalid h a : In Ntkgp (a_get a) -> fst (predict a (after h)) = Raise NotImplementedError.
  Proof. intros H. rewrite invalid_call by auto. reflexivity. Qed.

  (** The history that breaks it. *)
  Theorem history_dependent x x0 :
    let a := mkCall None (Some x) [Ntk] true in let b := mkCall None x0 [Ntk] false in
    fst (predict a no_caches) = direct None (Some x) true [Ntk]
    /\ (exists o, direct None (Some x) true [Ntk] = Ok o) /\ fst (predict a (after [b])) = Raise TypeError.
  Proof.
    intros a b. split; [|split].
    - destruct (call_ok a no_caches) as (st' & -> & _); [right; left; reflexivity|apply good_none|left; apply full_none|reflexivity].
    - unfold Spec_Ensemble.direct, Spec_Ensemble.direct_one, gp_predict. cbn. eauto.
    - destruct x0; reflexivity.
  Qed.
End Cache.
