(** Entries of one run are entries of another at mapped indices: exchanging the two
    inputs (C26), omitting the second (C27), selecting samples (C29, C30). *)
From Coq Require Import List Arith Lia Bool Reals Lra.
From Verif Require Import Base Model_Req Model_Geom Spec_Geom Proof_Geom Model_Net Spec_Net Proof_Net.
Import ListNotations.
Local Open Scope R_scope.

Definition is_none {A} (o : option A) : bool := match o with None => true | _ => false end.

Lemma hd_rev {A} (l : list A) d : hd d (rev l) = last l d.
Proof.
  induction l as [|a l IH] using rev_ind; [reflexivity|].
  rewrite rev_app_distr, last_last; reflexivity.
Qed.
Lemma last_rev {A} (l : list A) d : last (rev l) d = hd d l.
Proof. destruct l as [|a l]; [reflexivity|]. cbn [rev]; rewrite last_last; reflexivity. Qed.

Lemma hd_map {A B} (f : A -> B) l d d' : l <> [] -> hd d (map f l) = f (hd d' l).
Proof. destruct l; [congruence|reflexivity]. Qed.
Lemma last_map {A B} (f : A -> B) l d d' : l <> [] -> last (map f l) d = f (last l d').
Proof.
  induction l as [|a l IH]; [congruence|]. intros _. destruct l as [|b l]; [reflexivity|].
  change (last (map f (a :: b :: l)) d) with (last (map f (b :: l)) d).
  rewrite IH by discriminate. reflexivity.
Qed.
Lemma last_In {A} (l : list A) d : l <> [] -> In (last l d) l.
Proof.
  intros H. destruct (exists_last H) as (l' & a & ->). rewrite last_last. apply in_or_app; simpl; auto.
Qed.

Section Pull.
  (** [k'] is seen in [k]: its first side is [k]'s first (second if [sw]) side through [f],
      its second side is the other one through [g]. *)
  Variable sw : bool.
  Variables f g : nat -> nat.
  Variables (o o' db same same' : bool) (N1 N2 N1' N2' : nat).

  Definition side_a (k : sk) : cov := if sw then k_cov2 k else s_cov1 k.
  Definition side_b (k : sk) : cov := if sw then s_cov1 k else k_cov2 k.

  Definition nd : nat := if db then 1 else 2.
  Definition below (n : nat) (bi : list nat) : Prop := Forall (fun i => (i < n)%nat) bi.
  Definition pa bi (s : list loc) bi' (s' : list loc) : Prop :=
    length bi' = nd /\ below N1' bi' /\ bi = map f bi' /\ s = s'.
  Definition pb bi (s : list loc) bi' (s' : list loc) : Prop :=
    length bi' = nd /\ below N2' bi' /\ bi = map g bi' /\ s = s'.
  Definition pn bi (s : list loc) bi' (s' : list loc) : Prop :=
    exists i j, (i < N1')%nat /\ (j < N2')%nat /\ bi' = [i; j]
    /\ (if sw then bi = [g j; f i] /\ s = rev s' else bi = [f i; g j] /\ s = s').

  Record pulled (k k' : sk) : Prop := mkPulled {
    pu_n1 : s_n1 k = N1; pu_n2 : s_n2 k = N2; pu_n1' : s_n1 k' = N1'; pu_n2' : s_n2 k' = N2';
    pu_sp : s_sp k = s_sp k'; pu_ch : s_ch k = s_ch k'; pu_ds : s_ds k = s_ds k';
    pu_gauss : s_gauss k = s_gauss k'; pu_db : s_db k = db; pu_db' : s_db k' = db;
    pu_same : s_same k = same; pu_same' : s_same k' = same';
    pu_o : is_none (s_cov2 k) = o; pu_o' : is_none (s_cov2 k') = o';
    pu_a : prel pa (side_a k) (s_cov1 k'); pu_b : prel pb (side_b k) (k_cov2 k');
    pu_nngp : prel pn (s_nngp k) (s_nngp k'); pu_ntk : orel (prel pn) (s_ntk k) (s_ntk k')
  }.

  Definition nl_sym (nl : nonlin) : Prop :=
    forall n v w, nl_nngp nl n v w = nl_nngp nl n w v /\ nl_ntk nl n v w = nl_ntk nl n w v.

  Definition drop_ok : Prop :=
    (forall i j, (i < N1')%nat -> (j < N1')%nat -> f i = f j -> i = j)
    /\ (forall i j, (i < N2')%nat -> (j < N2')%nat -> g i = g j -> i = j)
    /\ (forall i j, (i < N1')%nat -> (j < N2')%nat ->
          ((N1 =? N2) && (f i =? g j))%nat && same = ((N1' =? N2') && (i =? j))%nat && same').

  Definition pull_ok (l : layer) : Prop :=
    match l with
    | LNonlin nl => sw = true -> nl_sym nl
    | LDropout _ => drop_ok
    | _ => True
    end.

  (** *** Operations on covariances *)
  Lemma pa_intro c c' :
    (forall bi s, length bi = nd -> below N1' bi -> c (map f bi) s = c' bi s) -> prel pa c c'.
  Proof using. intros H bi s bi' s' (L & B & -> & ->); auto. Qed.

  (** Everything a layer does to one covariance pointwise or across positions only,
      without looking at the batch indices. *)
  Definition batch_free (F : cov -> cov) : Prop :=
    exists G : (list loc -> R) -> list loc -> R,
      (forall x y s, (forall s, x s = y s) -> G x s = G y s) /\ forall c bi s, F c bi s = G (c bi) s.

  Lemma free_cov (fm : nat -> nat) n F c c' :
    batch_free F ->
    prel (fun bi s bi' s' => length bi' = nd /\ below n bi' /\ bi = map fm bi' /\ s = s') c c' ->
    prel (fun bi s bi' s' => length bi' = nd /\ below n bi' /\ bi = map fm bi' /\ s = s') (F c) (F c').
  Proof using.
    intros (G & HG & E) H bi s bi' s' (L & B & -> & ->). rewrite !E. apply HG. intros u. apply H; auto.
  Qed.

  (** Also compatible with exchanging positions. *)
  Definition rev_free (F : cov -> cov) : Prop :=
    exists G : (list loc -> R) -> list loc -> R,
      (forall x y s, (forall s, x s = y s) -> G x s = G y s)
      /\ (forall x s, G (fun s => x (rev s)) s = G x (rev s))
      /\ forall c bi s, F c bi s = G (c bi) s.

  Lemma rev_free_free F : rev_free F -> batch_free F.
  Proof using. intros (G & A & _ & B); exists G; auto. Qed.

  Lemma free_pn F c c' : rev_free F -> prel pn c c' -> prel pn (F c) (F c').
  Proof using.
    intros (G & HG & HR & E) H bi s bi' s' (i & j & Hi & Hj & -> & Hp). rewrite !E.
    destruct sw eqn:Esw; destruct Hp as [-> ->].
    - rewrite <- HR. apply HG. intros u. apply H. exists i, j. rewrite Esw; auto.
    - apply HG. intros u. apply H. exists i, j. rewrite Esw; auto.
  Qed.

  Lemma pn_pointwise2 (h : R -> R -> R) c c' d d' :
    prel pn c c' -> prel pn d d' ->
    prel pn (fun bi s => h (c bi s) (d bi s)) (fun bi s => h (c' bi s) (d' bi s)).
  Proof using. intros H H' bi s bi' s' Hp. rewrite (H _ _ _ _ Hp), (H' _ _ _ _ Hp); reflexivity. Qed.
  Lemma pn_pointwise (h : R -> R) c c' :
    prel pn c c' -> prel pn (fun bi s => h (c bi s)) (fun bi s => h (c' bi s)).
  Proof using. intros H bi s bi' s' Hp. rewrite (H _ _ _ _ Hp); reflexivity. Qed.

  Lemma affine_free W b : rev_free (affine W b).
  Proof using.
    exists (fun x s => x s * W ^ 2 + match b with Some b => b ^ 2 | None => 0 end).
    repeat split; auto. intros x y s H; rewrite H; reflexivity.
  Qed.

  Lemma rev_cases {A} (s : list A) :
    s = [] \/ (exists p, s = [p]) \/ (exists p q, s = [p; q])
    \/ (exists a b c l a' b' c' l', s = a :: b :: c :: l /\ rev s = a' :: b' :: c' :: l').
  Proof using.
    destruct s as [|p [|q [|r s]]]; [auto|eauto 6|right; right; left; eauto|].
    right; right; right. exists p, q, r, s.
    pose proof (rev_length (p :: q :: r :: s)) as L.
    destruct (rev (p :: q :: r :: s)) as [|a [|b [|c l]]]; simpl in L; try discriminate.
    exists a, b, c, l; auto.
  Qed.

  Lemma loc_eqb_sym p q : loc_eqb p q = loc_eqb q p.
  Proof using. unfold loc_eqb; destruct (loc_eq_dec p q), (loc_eq_dec q p); congruence. Qed.

  Lemma conv_affine_free shared ds scale shift : rev_free (conv_affine shared ds scale shift).
  Proof using.
    exists (fun x s => conv_affine shared ds scale shift (fun _ => x) [] s).
    split; [|split].
    - intros x y s H; unfold conv_affine; rewrite H; reflexivity.
    - intros x s; unfold conv_affine. f_equal. destruct shift as [c|]; [|reflexivity].
      destruct (ds || shared); [reflexivity|].
      destruct (rev_cases s) as [->|[(p & ->)|[(p & q & ->)|(a & b & c0 & l & a' & b' & c' & l' & Es & Er)]]]; [| | |rewrite Er, Es; reflexivity]; try reflexivity.
      cbn [rev app]. rewrite loc_eqb_sym; reflexivity.
    - intros; reflexivity.
  Qed.

  Lemma tap2_rev x a b : tap2 (fun s => x (rev s)) a b = tap2 x b a.
  Proof using. destruct a, b; reflexivity. Qed.
  Lemma tap1_rev x a : tap1 (fun s => x (rev s)) a = tap1 x a.
  Proof using. destruct a; reflexivity. Qed.
  Lemma tap1_ext x y a : (forall s, x s = y s) -> tap1 x a = tap1 y a.
  Proof using. intros H; destruct a; simpl; auto. Qed.
  Lemma tap2_ext x y a b : (forall s, x s = y s) -> tap2 x a b = tap2 y a b.
  Proof using. intros H; destruct a, b; simpl; auto. Qed.

  Lemma conv_free shared gm sp ds : rev_free (conv_unscaled shared gm sp ds).
  Proof using.
    exists (fun x s => conv_unscaled shared gm sp ds (fun _ => x) [] s).
    split; [|split].
    - intros x y s H; unfold conv_unscaled.
      destruct ds, s as [|p [|q [|r s]]]; auto.
      + f_equal; apply lsum_ext; intros; apply tap1_ext; auto.
      + destruct shared; [f_equal; apply lsum_ext; intros; apply tap2_ext; auto|].
        destruct (loc_eqb p q); [f_equal; apply lsum_ext; intros; apply tap2_ext; auto|reflexivity].
    - intros x s; unfold conv_unscaled.
      destruct (rev_cases s) as [->|[(p & ->)|[(p & q & ->)|(a & b & c0 & l & a' & b' & c' & l' & Es & Er)]]]; [| | |rewrite Er, Es; destruct ds; reflexivity]; destruct ds; try reflexivity; cbn [rev app].
      + rewrite (loc_eqb_sym q p). destruct shared; [f_equal; apply lsum_ext; intros; apply tap2_rev|].
        destruct (loc_eqb_spec p q); auto; subst.
        f_equal; apply lsum_ext; intros; apply tap2_rev.
    - intros; reflexivity.
  Qed.

  Lemma win_rev ne gm sp ds s : win_size ne gm sp ds (rev s) = win_size ne gm sp ds s.
  Proof using.
    unfold win_size. destruct (g_pad gm), ne; auto.
    destruct (rev_cases s) as [->|[(p & ->)|[(p & q & ->)|(a & b & c0 & l & a' & b' & c' & l' & Es & Er)]]]; [| | |rewrite Er, Es; destruct ds; reflexivity]; destruct ds; try reflexivity; cbn [rev app].
    rewrite lsum_swap. apply lsum_ext; intros a _; apply lsum_ext; intros b _.
    destruct (geom_at gm sp q b), (geom_at gm sp p a); reflexivity.
  Qed.

  Lemma pool_free avg ne gm sp ds : rev_free (pool avg ne gm sp ds).
  Proof using.
    exists (fun x s => pool avg ne gm sp ds (fun _ => x) [] s).
    assert (forall x y s, (forall s, x s = y s) ->
      match ds, s with
      | true, [p] => lsum (taps gm) (fun k => tap1 x (geom_at gm sp p k))
      | false, [p; q] => lsum (taps gm) (fun k => lsum (taps gm) (fun l => tap2 x (geom_at gm sp p k) (geom_at gm sp q l)))
      | _, _ => 0
      end = match ds, s with
      | true, [p] => lsum (taps gm) (fun k => tap1 y (geom_at gm sp p k))
      | false, [p; q] => lsum (taps gm) (fun k => lsum (taps gm) (fun l => tap2 y (geom_at gm sp p k) (geom_at gm sp q l)))
      | _, _ => 0
      end) as H1.
    { intros x y s H. destruct ds, s as [|p [|q [|r s]]]; auto.
      - apply lsum_ext; intros; apply tap1_ext; auto.
      - apply lsum_ext; intros; apply lsum_ext; intros; apply tap2_ext; auto. }
    assert (forall x s,
      match ds, s with
      | true, [p] => lsum (taps gm) (fun k => tap1 (fun s => x (rev s)) (geom_at gm sp p k))
      | false, [p; q] => lsum (taps gm) (fun k => lsum (taps gm) (fun l => tap2 (fun s => x (rev s)) (geom_at gm sp p k) (geom_at gm sp q l)))
      | _, _ => 0
      end = match ds, rev s with
      | true, [p] => lsum (taps gm) (fun k => tap1 x (geom_at gm sp p k))
      | false, [p; q] => lsum (taps gm) (fun k => lsum (taps gm) (fun l => tap2 x (geom_at gm sp p k) (geom_at gm sp q l)))
      | _, _ => 0
      end) as H2.
    { intros x s.
      destruct (rev_cases s) as [->|[(p & ->)|[(p & q & ->)|(a & b & c0 & l & a' & b' & c' & l' & Es & Er)]]]; [| | |rewrite Er, Es; destruct ds; reflexivity]; destruct ds; try reflexivity; cbn [rev app].
      - rewrite lsum_swap. apply lsum_ext; intros; apply lsum_ext; intros; apply tap2_rev. }
    split; [|split].
    - intros x y s H; unfold pool. rewrite (H1 x y s H); reflexivity.
    - intros x s; unfold pool. rewrite (H2 x s), win_rev; reflexivity.
    - intros; reflexivity.
  Qed.

  Lemma gpool_free avg sp ds : rev_free (gpool avg sp ds).
  Proof using.
    exists (fun x s => gpool avg sp ds (fun _ => x) [] s).
    split; [|split].
    - intros x y s H; unfold gpool; destruct ds.
      + rewrite (lsum_ext _ (fun p => x [p]) (fun p => y [p])); auto.
      + rewrite (lsum_ext _ (fun p => lsum (locs sp) (fun q => x [p; q])) (fun p => lsum (locs sp) (fun q => y [p; q]))); auto.
        intros; apply lsum_ext; auto.
    - intros x s; unfold gpool; destruct ds; [reflexivity|].
      cbn [rev app]. rewrite lsum_swap; reflexivity.
    - intros; reflexivity.
  Qed.

  Lemma flatten_free sp ds : rev_free (flatten sp ds).
  Proof using.
    exists (fun x s => flatten sp ds (fun _ => x) [] s).
    split; [|split].
    - intros x y s H; unfold flatten. f_equal; apply lsum_ext; auto.
    - intros x s; unfold flatten; destruct ds; reflexivity.
    - intros; reflexivity.
  Qed.

  Lemma nd_nonnil (bi : list nat) : length bi = nd -> bi <> [].
  Proof using. unfold nd; destruct db, bi; simpl; congruence. Qed.

  Lemma dvar_side fm n ds c c' i p :
    prel (fun bi s bi' s' => length bi' = nd /\ below n bi' /\ bi = map fm bi' /\ s = s') c c' ->
    (i < n)%nat -> dvar db ds c (fm i) p = dvar db ds c' i p.
  Proof using.
    intros H Hi; unfold dvar. apply H. unfold nd, below; destruct db; repeat split; auto.
  Qed.

  Lemma ln_var_side fm n eps over sp ds c c' i p :
    prel (fun bi s bi' s' => length bi' = nd /\ below n bi' /\ bi = map fm bi' /\ s = s') c c' ->
    (i < n)%nat -> ln_var eps over sp db ds c (fm i) p = ln_var eps over sp db ds c' i p.
  Proof using.
    intros H Hi; unfold ln_var. f_equal. apply lsum_ext; intros q _.
    rewrite (dvar_side fm n ds c c'); auto.
  Qed.

  Lemma below_hd n bi : length bi = nd -> below n bi -> (hd 0 bi < n)%nat.
  Proof using. intros H B; apply nd_nonnil in H. destruct B; [congruence|auto]. Qed.
  Lemma below_last n bi : length bi = nd -> below n bi -> (last bi 0 < n)%nat.
  Proof using. intros H B. apply (proj1 (Forall_forall _ _) B), last_In, nd_nonnil; auto. Qed.

  Definition pcov (fm : nat -> nat) (n : nat) :=
    prel (fun bi s bi' s' => length bi' = nd /\ below n bi' /\ bi = map fm bi' /\ s = s').

  Lemma with_vars_cov fm n h ds c c' :
    pcov fm n c c' -> pcov fm n (with_vars h db ds c c c) (with_vars h db ds c' c' c').
  Proof using.
    intros H bi s bi' s' (L & B & -> & ->); unfold with_vars.
    rewrite (hd_map fm bi' 0%nat 0%nat), (last_map fm bi' 0%nat 0%nat) by (apply nd_nonnil; auto).
    rewrite (H (map fm bi') s' bi' s') by auto.
    rewrite !(dvar_side fm n ds c c' _ _ H); auto; [apply below_last|apply below_hd]; auto.
  Qed.

  Lemma layer_norm_cov fm n eps over sp ds c c' :
    pcov fm n c c' -> pcov fm n (layer_norm eps over sp db ds c c c) (layer_norm eps over sp db ds c' c' c').
  Proof using.
    intros H bi s bi' s' (L & B & -> & ->); unfold layer_norm.
    rewrite (hd_map fm bi' 0%nat 0%nat), (last_map fm bi' 0%nat 0%nat) by (apply nd_nonnil; auto).
    rewrite (H (map fm bi') s' bi' s') by auto.
    rewrite !(ln_var_side fm n eps over sp ds c c' _ _ H); auto; [apply below_last|apply below_hd]; auto.
  Qed.

  Lemma diag_mul_cov fm n factor c c' :
    (forall i j, (i < n)%nat -> (j < n)%nat -> fm i = fm j -> i = j) ->
    pcov fm n c c' -> pcov fm n (diag_mul true factor c) (diag_mul true factor c').
  Proof using.
    intros Hi H bi s bi' s' (L & B & -> & ->); unfold diag_mul.
    rewrite (H (map fm bi') s' bi' s') by auto.
    destruct bi' as [|i [|j [|]]]; simpl; auto.
    inversion B as [|? ? Bi B']; subst. inversion B' as [|? ? Bj _]; subst.
    replace (fm i =? fm j)%nat with (i =? j)%nat; auto.
    destruct (Nat.eqb_spec i j), (Nat.eqb_spec (fm i) (fm j)); subst; auto; try congruence.
  Qed.

  (** The two variances an entry of [nngp] is formed from. *)
  Lemma with_vars_pn h ds ca cb ca' cb' x x' :
    (sw = true -> forall n v w, h n v w = h n w v) ->
    pcov f N1' (if sw then cb else ca) ca' -> pcov g N2' (if sw then ca else cb) cb' -> prel pn x x' ->
    prel pn (with_vars h db ds ca cb x) (with_vars h db ds ca' cb' x').
  Proof using.
    intros Hs Ha Hb Hx bi s bi' s' Hp. pose proof (Hx _ _ _ _ Hp) as E.
    destruct Hp as (i & j & Hi & Hj & -> & Hp). unfold with_vars. rewrite E.
    destruct sw; destruct Hp as [-> ->]; cbn [hd last].
    - rewrite hd_rev, last_rev.
      rewrite (dvar_side f N1' ds _ ca'), (dvar_side g N2' ds _ cb'); auto.
    - rewrite (dvar_side f N1' ds _ ca'), (dvar_side g N2' ds _ cb'); auto.
  Qed.

  Lemma layer_norm_pn eps over sp ds ca cb ca' cb' x x' :
    pcov f N1' (if sw then cb else ca) ca' -> pcov g N2' (if sw then ca else cb) cb' -> prel pn x x' ->
    prel pn (layer_norm eps over sp db ds ca cb x) (layer_norm eps over sp db ds ca' cb' x').
  Proof using.
    intros Ha Hb Hx bi s bi' s' Hp. pose proof (Hx _ _ _ _ Hp) as E.
    destruct Hp as (i & j & Hi & Hj & -> & Hp). unfold layer_norm. rewrite E.
    destruct sw; destruct Hp as [-> ->]; cbn [hd last].
    - rewrite hd_rev, last_rev.
      rewrite (ln_var_side f N1' eps over sp ds _ ca'), (ln_var_side g N2' eps over sp ds _ cb'); auto.
      rewrite Rmult_comm; reflexivity.
    - rewrite (ln_var_side f N1' eps over sp ds _ ca'), (ln_var_side g N2' eps over sp ds _ cb'); auto.
  Qed.

  Lemma rev_is_diag (s : list loc) :
    match rev s with [p; q] => loc_eqb p q | _ => true end = match s with [p; q] => loc_eqb p q | _ => true end.
  Proof using.
    destruct (rev_cases s) as [->|[(p & ->)|[(p & q & ->)|(a & b & c0 & l & a' & b' & c' & l' & Es & Er)]]]; [| | |rewrite Er, Es; reflexivity]; auto.
    apply loc_eqb_sym.
  Qed.

  Lemma diag_mul_pn factor x x' :
    drop_ok -> prel pn x x' ->
    prel pn (diag_mul (N1 =? N2)%nat (if same then factor else 1) x)
            (diag_mul (N1' =? N2')%nat (if same' then factor else 1) x').
  Proof using.
    intros (_ & _ & Hd) Hx bi s bi' s' Hp. pose proof (Hx _ _ _ _ Hp) as E.
    destruct Hp as (i & j & Hi & Hj & -> & Hp). unfold diag_mul. rewrite E.
    specialize (Hd i j Hi Hj).
    assert (match bi with [i0; j0] => ((N1 =? N2) && (i0 =? j0))%nat | _ => true end
            = ((N1 =? N2) && (f i =? g j))%nat) as ->.
    { destruct sw; destruct Hp as [-> _]; auto. rewrite (Nat.eqb_sym (g j)); reflexivity. }
    assert (match s with [p; q] => loc_eqb p q | _ => true end = match s' with [p; q] => loc_eqb p q | _ => true end) as ->.
    { destruct sw; destruct Hp as [_ ->]; auto. apply rev_is_diag. }
    destruct ((N1 =? N2) && (f i =? g j))%nat, ((N1' =? N2') && (i =? j))%nat, same, same'; simpl in Hd; try discriminate;
      destruct (match s' with [p; q] => loc_eqb p q | _ => true end); simpl; lra.
  Qed.

  (** *** Layers *)
  Definition sides (F : cov -> cov) (k : sk) (r : sk) : Prop :=
    s_cov1 r = F (s_cov1 k) /\ s_cov2 r = omap F (s_cov2 k).

  Lemma sides_cov2 F k r : sides F k r -> k_cov2 r = F (k_cov2 k) /\ is_none (s_cov2 r) = is_none (s_cov2 k).
  Proof using. intros [A B]; unfold k_cov2; rewrite A, B; destruct (s_cov2 k); auto. Qed.

  Lemma pulled_replace F F' k k' sp ch nngp nngp' ntk ntk' ds gauss :
    pulled k k' ->
    (forall fm n c c', (fm = f /\ n = N1' \/ fm = g /\ n = N2') -> pcov fm n c c' -> pcov fm n (F c) (F' c')) ->
    prel pn nngp nngp' -> orel (prel pn) ntk ntk' ->
    pulled (replace k sp ch (F (s_cov1 k)) (omap F (s_cov2 k)) nngp ntk ds gauss)
           (replace k' sp ch (F' (s_cov1 k')) (omap F' (s_cov2 k')) nngp' ntk' ds gauss).
  Proof using.
    intros [] HF Hn Ht.
    destruct (sides_cov2 F k (replace k sp ch (F (s_cov1 k)) (omap F (s_cov2 k)) nngp ntk ds gauss)) as [E1 E2];
      [split; reflexivity|].
    destruct (sides_cov2 F' k' (replace k' sp ch (F' (s_cov1 k')) (omap F' (s_cov2 k')) nngp' ntk' ds gauss)) as [E1' E2'];
      [split; reflexivity|].
    constructor; auto; try congruence.
    - unfold side_a. rewrite E1. cbn [s_cov1 replace].
      assert (pcov f N1' (side_a k) (s_cov1 k')) as HA by (intros ? ? ? ? HH; apply pu_a0; exact HH).
      specialize (HF f N1' _ _ (or_introl (conj eq_refl eq_refl)) HA).
      unfold side_a in HF. destruct sw; exact HF.
    - unfold side_b. rewrite E1, E1'. cbn [s_cov1 replace].
      assert (pcov g N2' (side_b k) (k_cov2 k')) as HA by (intros ? ? ? ? HH; apply pu_b0; exact HH).
      specialize (HF g N2' _ _ (or_intror (conj eq_refl eq_refl)) HA).
      unfold side_b in HF. destruct sw; exact HF.
  Qed.

  Lemma omap_pn F F' o1 o2 :
    (forall c c', prel pn c c' -> prel pn (F c) (F' c')) ->
    orel (prel pn) o1 o2 -> orel (prel pn) (omap F o1) (omap F' o2).
  Proof using. intros H Ho; unfold omap; apply (orel_map (prel pn)); auto. Qed.

  Lemma pulled_layer l k k' :
    pull_ok l -> pulled k k' -> rres pulled (layer_fn l k) (layer_fn l k').
  Proof using.
    intros Hok HP. pose proof HP as HP0. destruct HP0.
    destruct l as [|width W b std|shared gm width W b std|avg ne gm|avg| |nl|eps over|rate];
      cbn [layer_fn]; rewrite <- ?pu_sp0, <- ?pu_ds0, <- ?pu_ch0, <- ?pu_gauss0, ?pu_db0, ?pu_db'0.
    - exact HP.
    - cbn [rres]. apply (pulled_replace (affine W b) (affine W b)); auto.
      + intros fm n c c' _; apply free_cov, rev_free_free, affine_free.
      + apply free_pn; auto using affine_free.
      + destruct std as [s0|]; apply omap_pn; auto; intros c c' Hc.
        * apply (pn_pointwise2 (fun a t => INR (s_ch k) / s0 * a + W ^ 2 * t + match b with Some _ => 1 | None => 0 end)); auto.
        * apply (pn_pointwise2 (fun a t => a + W ^ 2 * t)); auto. apply free_pn; auto using affine_free.
    - destruct (geom_ok gm (s_sp k)); [|reflexivity]. cbn [rres].
      apply (pulled_replace
        (fun x => conv_affine shared (s_ds k) (W ^ 2) (option_map (fun b => b ^ 2) b) (conv_unscaled shared gm (s_sp k) (s_ds k) x))
        (fun x => conv_affine shared (s_ds k) (W ^ 2) (option_map (fun b => b ^ 2) b) (conv_unscaled shared gm (s_sp k) (s_ds k) x))); auto.
      + intros fm n c c' _ Hc. apply free_cov; [apply rev_free_free, conv_affine_free|].
        apply free_cov; [apply rev_free_free, conv_free|exact Hc].
      + apply free_pn; [apply conv_affine_free|]. apply free_pn; auto using conv_free.
      + destruct std as [s0|]; apply omap_pn; auto; intros c c' Hc.
        * assert (prel pn
            (fun bi s => INR (s_ch k * vol (g_filter gm)) / s0 * conv_unscaled shared gm (s_sp k) (s_ds k) (s_nngp k) bi s
                         + W ^ 2 * conv_unscaled shared gm (s_sp k) (s_ds k) c bi s)
            (fun bi s => INR (s_ch k * vol (g_filter gm)) / s0 * conv_unscaled shared gm (s_sp k) (s_ds k) (s_nngp k') bi s
                         + W ^ 2 * conv_unscaled shared gm (s_sp k) (s_ds k) c' bi s)) as H.
          { apply (pn_pointwise2 (fun a t => INR (s_ch k * vol (g_filter gm)) / s0 * a + W ^ 2 * t));
              apply free_pn; auto using conv_free. }
          destruct b; [|exact H]. apply free_pn; [apply conv_affine_free|exact H].
        * apply (pn_pointwise2 (fun a t => W ^ 2 * a + t)).
          -- apply free_pn; auto using conv_free.
          -- apply free_pn; [apply conv_affine_free|]. apply free_pn; auto using conv_free.
    - destruct (geom_ok gm (s_sp k)); [|reflexivity]. cbn [rres].
      apply (pulled_replace (pool avg ne gm (s_sp k) (s_ds k)) (pool avg ne gm (s_sp k) (s_ds k))); auto.
      + intros fm n c c' _; apply free_cov, rev_free_free, pool_free.
      + apply free_pn; auto using pool_free.
      + apply omap_pn; auto; intros; apply free_pn; auto using pool_free.
    - cbn [rres]. apply (pulled_replace (gpool avg (s_sp k) (s_ds k)) (gpool avg (s_sp k) (s_ds k))); auto.
      + intros fm n c c' _; apply free_cov, rev_free_free, gpool_free.
      + apply free_pn; auto using gpool_free.
      + apply omap_pn; auto; intros; apply free_pn; auto using gpool_free.
    - cbn [rres]. apply (pulled_replace (flatten (s_sp k) (s_ds k)) (flatten (s_sp k) (s_ds k))); auto.
      + intros fm n c c' _; apply free_cov, rev_free_free, flatten_free.
      + apply free_pn; auto using flatten_free.
      + apply omap_pn; auto; intros; apply free_pn; auto using flatten_free.
    - destruct (s_gauss k) eqn:Eg; [|reflexivity]. cbn [rres].
      assert (pcov f N1' (if sw then k_cov2 k else s_cov1 k) (s_cov1 k')) as HA by exact pu_a0.
      assert (pcov g N2' (if sw then s_cov1 k else k_cov2 k) (k_cov2 k')) as HB by exact pu_b0.
      apply (pulled_replace
        (fun c => if db && s_ds k then (fun bi s => nl_diag nl (c bi s)) : cov else with_vars (nl_cov nl) db (s_ds k) c c c)
        (fun c => if db && s_ds k then (fun bi s => nl_diag nl (c bi s)) : cov else with_vars (nl_cov nl) db (s_ds k) c c c)); auto.
      + intros fm n c c' _ Hc. destruct (db && s_ds k).
        * intros bi s bi' s' Hp. rewrite (Hc _ _ _ _ Hp); reflexivity.
        * apply with_vars_cov; auto.
      + apply with_vars_pn; auto. intros Hs n v w; apply (Hok Hs).
      + apply omap_pn; auto; intros c c' Hc.
        apply (pn_pointwise2 Rmult); auto. apply with_vars_pn; auto. intros Hs n v w; apply (Hok Hs).
    - destruct (s_gauss k) eqn:Eg; [|reflexivity]. cbn [rres].
      assert (pcov f N1' (if sw then k_cov2 k else s_cov1 k) (s_cov1 k')) as HA by exact pu_a0.
      assert (pcov g N2' (if sw then s_cov1 k else k_cov2 k) (k_cov2 k')) as HB by exact pu_b0.
      apply (pulled_replace
        (fun c => layer_norm eps over (s_sp k) db (s_ds k) c c c)
        (fun c => layer_norm eps over (s_sp k) db (s_ds k) c c c)); auto.
      + intros fm n c c' _ Hc. apply layer_norm_cov; auto.
      + apply layer_norm_pn; auto.
      + apply omap_pn; auto; intros c c' Hc. apply layer_norm_pn; auto.
    - cbn [rres]. rewrite pu_n3, pu_n4, pu_n1'0, pu_n2'0, pu_same0, pu_same'0.
      apply (pulled_replace (diag_mul true (/ rate)) (diag_mul true (/ rate))); auto.
      + intros fm n c c' [[-> ->]|[-> ->]]; apply diag_mul_cov; apply Hok.
      + apply diag_mul_pn; auto.
      + apply omap_pn; auto; intros; apply diag_mul_pn; auto.
  Qed.

  (** *** Fan-in *)
  Lemma forallb_const_map {A} (P : A -> A -> Prop) (h h' : A -> bool) l l' :
    Forall2 P l l' -> (forall a b, P a b -> h a = h' b) -> forallb h l = forallb h' l'.
  Proof using. apply forallb_rel. Qed.

  Lemma all_some_none {A} (os : list (option A)) b :
    os <> [] -> Forall (fun x => is_none x = b) os ->
    if b then all_some os = None else exists l, all_some os = Some l /\ os = map Some l.
  Proof using.
    intros Hne H; destruct b.
    - destruct H as [|x os Hx _]; [congruence|]. destruct x; [discriminate|reflexivity].
    - clear Hne; induction H as [|x os Hx _ IH]; [exists []; auto|].
      destruct x as [a|]; [|discriminate]. destruct IH as (l & E & ->).
      exists (a :: l); simpl; rewrite E; auto.
  Qed.

  Lemma mixed_uniform {A} (os : list (option A)) b :
    Forall (fun x => is_none x = b) os -> mixed os = false.
  Proof using.
    destruct 1 as [|x os Hx H]; [reflexivity|]. destruct x; [|reflexivity]. simpl in *; subst b.
    induction H as [|y os Hy _ IH]; [reflexivity|]. destruct y; simpl in *; [auto|discriminate].
  Qed.

  Lemma map_Some_cov2 (ks : list sk) l :
    map s_cov2 ks = map Some l -> map k_cov2 ks = l.
  Proof using.
    revert l; induction ks as [|k ks IH]; intros [|c l]; simpl; try discriminate; auto.
    intros E; injection E as E1 E2. f_equal; auto. unfold k_cov2; rewrite E1; reflexivity.
  Qed.

  Lemma cov2_None (ks : list sk) :
    Forall (fun x => is_none x = true) (map s_cov2 ks) -> map k_cov2 ks = map s_cov1 ks.
  Proof using.
    induction ks as [|k ks IH]; simpl; auto. intros H; inversion H as [|? ? Hk H']; subst.
    f_equal; auto. unfold k_cov2; destruct (s_cov2 k); [discriminate|reflexivity].
  Qed.

  Lemma fan_cov2 fa k0 ks b :
    ks <> [] -> Forall (fun x => is_none x = b) (map s_cov2 ks) ->
    k_cov2 (fan_value fa k0 ks) = fan_cov fa (map s_ch ks) (map k_cov2 ks)
    /\ is_none (s_cov2 (fan_value fa k0 ks)) = b.
  Proof using.
    intros Hne H. pose proof (all_some_none (map s_cov2 ks) b) as Ha.
    assert (map s_cov2 ks <> []) as Hne' by (destruct ks; simpl; congruence).
    specialize (Ha Hne' H). unfold k_cov2 at 1. cbn [fan_value replace s_cov2 s_cov1].
    destruct b.
    - rewrite Ha; cbn [option_map is_none]. split; [|reflexivity]. rewrite cov2_None; auto.
    - destruct Ha as (l & -> & E); cbn [option_map is_none]. split; [|reflexivity].
      rewrite (map_Some_cov2 ks l); auto.
  Qed.

  Lemma Forall_map_proj {B} (P : B -> Prop) (h : sk -> B) ks : (forall k, In k ks -> P (h k)) -> Forall P (map h ks).
  Proof using. intros H; apply Forall_forall; intros b Hb; apply in_map_iff in Hb as (k & <- & Hk); auto. Qed.

  Lemma Forall2_l {A} (P : A -> A -> Prop) (Q : A -> Prop) l l' :
    Forall2 P l l' -> (forall a b, P a b -> Q a) -> forall a, In a l -> Q a.
  Proof using. induction 1; simpl; intros HQ c Hc; [destruct Hc|]. destruct Hc as [<-|Hc]; [eapply HQ; eassumption|apply IHForall2; auto]. Qed.
  Lemma Forall2_r {A} (P : A -> A -> Prop) (Q : A -> Prop) l l' :
    Forall2 P l l' -> (forall a b, P a b -> Q b) -> forall a, In a l' -> Q a.
  Proof using. induction 1; simpl; intros HQ c Hc; [destruct Hc|]. destruct Hc as [<-|Hc]; [eapply HQ; eassumption|apply IHForall2; auto]. Qed.

  Lemma map_eq2 {A B} (P : A -> A -> Prop) (h h' : A -> B) l l' :
    Forall2 P l l' -> (forall a b, P a b -> h a = h' b) -> map h l = map h' l'.
  Proof using. induction 1; simpl; intros H'; f_equal; auto. Qed.

  Lemma pulled_layouts k k' k0 k0' : pulled k k' -> pulled k0 k0' -> same_layout k k0 = same_layout k' k0'.
  Proof using. intros [] []; unfold same_layout; congruence. Qed.
  Lemma pulled_batch k k' k0 k0' : pulled k k' -> pulled k0 k0' -> same_batch k k0 = same_batch k' k0'.
  Proof using.
    intros [] []; unfold same_batch.
    replace (s_n1 k) with N1; replace (s_n2 k) with N2; replace (s_n1 k0) with N1; replace (s_n2 k0) with N2;
    replace (s_n1 k') with N1'; replace (s_n2 k') with N2'; replace (s_n1 k0') with N1'; replace (s_n2 k0') with N2'.
    rewrite !Nat.eqb_refl. congruence.
  Qed.

  Lemma pulled_fan_check fa ks ks' : Forall2 pulled ks ks' -> fan_check fa ks = fan_check fa ks'.
  Proof using.
    intros H. assert (length ks = length ks') as Hl by (induction H; simpl; auto).
    assert (mixed (map s_cov2 ks) = false) as Hm.
    { apply (mixed_uniform _ o), Forall_map_proj. apply (Forall2_l pulled (fun k => is_none (s_cov2 k) = o) ks ks' H); intros a b []; auto. }
    assert (mixed (map s_cov2 ks') = false) as Hm'.
    { apply (mixed_uniform _ o'), Forall_map_proj. apply (Forall2_r pulled (fun k => is_none (s_cov2 k) = o') ks ks' H); intros a b []; auto. }
    assert (mixed (map s_ntk ks) = mixed (map s_ntk ks')) as Ht.
    { apply (mixed_orel (prel pn)), (Forall2_map2 _ _ _ pulled); auto. intros a b []; auto. }
    assert (forallb s_gauss ks = forallb s_gauss ks') as Hg.
    { apply (forallb_rel pulled); auto; intros a b []; auto. }
    destruct H as [|k0 k0' ks ks' H0 H]; [reflexivity|]. cbn [fan_check].
    rewrite Hm, Hm', Ht, Hg, Hl.
    rewrite (forallb_rel pulled (fun k => same_layout k k0) (fun k => same_layout k k0') ks ks' H)
      by (intros; apply pulled_layouts; auto).
    rewrite (forallb_rel pulled (fun k => same_batch k k0) (fun k => same_batch k k0') ks ks' H)
      by (intros; apply pulled_batch; auto).
    rewrite (forallb_rel pulled (fun k => s_ch k =? s_ch k0)%nat (fun k => s_ch k =? s_ch k0')%nat ks ks' H)
      by (intros a b Hab; destruct Hab, H0; congruence).
    reflexivity.
  Qed.

  Lemma pulled_fan fa ks ks' : Forall2 pulled ks ks' -> rres pulled (fan_in fa ks) (fan_in fa ks').
  Proof using.
    intros H. unfold fan_in. rewrite (pulled_fan_check fa ks ks' H).
    destruct (fan_check fa ks') as [e|] eqn:Ec; [destruct ks, ks'; reflexivity|].
    assert (map s_ch ks = map s_ch ks') as Ew by (apply (map_eq2 pulled); auto; intros a b []; auto).
    assert (forallb s_gauss ks = forallb s_gauss ks') as Hg by (apply (forallb_rel pulled); auto; intros a b []; auto).
    assert (length ks = length ks') as Hl by (eapply Forall2_length; eassumption).
    assert (Forall (fun x => is_none x = o) (map s_cov2 ks)) as Ho
      by (apply Forall_map_proj, (Forall2_l pulled (fun k => is_none (s_cov2 k) = o) ks ks' H); intros a b []; auto).
    assert (Forall (fun x => is_none x = o') (map s_cov2 ks')) as Ho'
      by (apply Forall_map_proj, (Forall2_r pulled (fun k => is_none (s_cov2 k) = o') ks ks' H); intros a b []; auto).
    assert (ks = [] -> False) as Hne by (intros ->; inversion H; subst; simpl in Ec; discriminate).
    assert (ks' = [] -> False) as Hne' by (intros ->; simpl in Ec; discriminate).
    assert (Forall2 pulled ks ks') as H' by exact H.
    destruct H as [|k0 k0' ks0 ks0' H0 H]; [tauto|].
    set (ks := k0 :: ks0) in *; set (ks' := k0' :: ks0') in *. cbn [rres].
    destruct (fan_cov2 fa k0 ks o Hne Ho) as [E2 EN].
    destruct (fan_cov2 fa k0' ks' o' Hne' Ho') as [E2' EN'].
    pose proof H0 as H00; destruct H00.
    constructor; auto.
    - cbn [fan_value replace s_ch]. rewrite Ew, pu_ch0; reflexivity.
    - cbn [fan_value replace s_gauss]. rewrite Hg, Hl, pu_gauss0; reflexivity.
    - unfold side_a. rewrite E2. cbn [fan_value replace s_cov1]. rewrite <- Ew.
      destruct sw eqn:Esw; apply prel_fan, (Forall2_map2 _ _ _ pulled); auto; intros a b [];
        unfold side_a in pu_a1; rewrite Esw in pu_a1; exact pu_a1.
    - unfold side_b. rewrite E2, E2'. cbn [fan_value replace s_cov1]. rewrite <- Ew.
      destruct sw eqn:Esw; apply prel_fan, (Forall2_map2 _ _ _ pulled); auto; intros a b [];
        unfold side_b in pu_b1; rewrite Esw in pu_b1; exact pu_b1.
    - cbn [fan_value replace s_nngp]. rewrite <- Ew.
      apply prel_fan, (Forall2_map2 _ _ _ pulled); auto; intros a b []; auto.
    - cbn [fan_value replace s_ntk]. rewrite <- Ew. apply (orel_map (Forall2 (prel pn))).
      + intros a b Hab. apply prel_fan_ntk; auto. apply (Forall2_map2 _ _ _ pulled); auto; intros ? ? []; auto.
      + apply orel_all_some, (Forall2_map2 _ _ _ pulled); auto; intros a b []; auto.
  Qed.

  Lemma pulled_eval t k k' :
    Forall pull_ok (layers t) -> pulled k k' -> rres pulled (eval t k) (eval t k').
  Proof using.
    apply eval_sim; [intros ? ? []; auto|apply pulled_layer|apply pulled_fan].
  Qed.
End Pull.
