(** Proofs about requirements and combinators. *)
From Coq Require Import List Arith ZArith Lia Bool.
From Verif Require Import Base Model_Get Model_Req Spec_Req.
Import ListNotations.

(** ** The algebra *)
Lemma dand_comm a b : dand a b = dand b a.
Proof. destruct a as [[] []], b as [[] []]; reflexivity. Qed.
Lemma dand_assoc a b c : dand a (dand b c) = dand (dand a b) c.
Proof. destruct a as [[] []], b as [[] []], c as [[] []]; reflexivity. Qed.
Lemma dand_idem a : dand a a = a.
Proof. destruct a as [[] []]; reflexivity. Qed.
Lemma dshift_assoc a b c : dshift a (dshift b c) = dshift (dshift a b) c.
Proof. destruct a as [[] []], b as [[] []], c as [[] []]; reflexivity. Qed.
Lemma dshift_in_le a b : rank (d_in (dshift a b)) <= rank (d_in a).
Proof. destruct a as [[] []], b as [[] []]; vm_compute; lia. Qed.
Lemma dshift_blocked a b : d_out a <> YES -> d_in b = NO -> d_in (dshift a b) = NO.
Proof. destruct a as [[] []], b as [[] []]; cbv; intros; congruence. Qed.
Lemma dshift_discards a b : d_out a = YES -> dshift a b = a.
Proof. destruct a as [i []]; simpl; intros; try congruence; reflexivity. Qed.
Lemma dshift_out a b : d_out (dshift a b) = YES <-> d_out a = YES \/ d_out b = YES.
Proof. destruct a as [[] []], b as [[] []]; cbv; intuition congruence. Qed.
Lemma dand_glb a b c : (rank (d_in c) <= rank (d_in (dand a b)) /\ rank (d_out c) <= rank (d_out (dand a b)))
  <-> (rank (d_in c) <= rank (d_in a) /\ rank (d_in c) <= rank (d_in b)
       /\ rank (d_out c) <= rank (d_out a) /\ rank (d_out c) <= rank (d_out b)).
Proof. destruct a as [[] []], b as [[] []], c as [[] []]; simpl; lia. Qed.

(** ** Merging plain requirements *)
Definition ods (a b : option dval) : option dval :=
  match a, b with
  | None, _ => b
  | _, None => a
  | Some (DD x), Some (DD y) => Some (DD (dshift x y))
  | _, _ => a
  end.
Definition och {A} (a b : option A) : option A := match a with Some _ => a | None => b end.

Lemma merge_plain a b : plain a -> plain b ->
  merge Shift a b = bind (merge_drop (r_dropout a) (r_dropout b)) (fun dr =>
    Ok (mkReq dr (och (r_batch a) (r_batch b)) (och (r_channel a) (r_channel b)) None (ods (r_ds a) (r_ds b)))).
Proof.
  destruct a as [da ba ca dba dsa], b as [db bb cb dbb dsb]. intros [H1 H2] [H3 H4]; simpl in *; subst.
  unfold merge; simpl. destruct (merge_drop da db); simpl; auto.
  destruct ca as [ca|], cb as [cb|]; simpl; destruct dsa as [[| |]|]; try tauto; destruct dsb as [[| |]|]; try tauto; reflexivity.
Qed.

Lemma merge_plain_plain a b r : plain a -> plain b -> merge Shift a b = Ok r -> plain r.
Proof.
  intros Ha Hb. rewrite merge_plain by auto. destruct (merge_drop _ _); simpl; [|discriminate].
  intros E; injection E as <-. split; [reflexivity|]. simpl.
  destruct Ha as [_ Ha], Hb as [_ Hb]. destruct (r_ds a) as [[| |]|]; try tauto; destruct (r_ds b) as [[| |]|]; try tauto; exact I.
Qed.

Lemma plain_no_req : plain no_req.
Proof. split; [reflexivity|exact I]. Qed.

Lemma merge_no_l r : plain r -> merge Shift no_req r = Ok r.
Proof.
  intros H. rewrite merge_plain by (auto using plain_no_req). destruct r as [d b c db ds].
  destruct H as [H1 H2]; simpl in *; subst. destruct d; reflexivity.
Qed.
Lemma merge_no_r r : plain r -> merge Shift r no_req = Ok r.
Proof.
  intros H. rewrite merge_plain by (auto using plain_no_req). destruct r as [d b c db ds].
  destruct H as [H1 H2]; simpl in *; subst. unfold och. destruct d, b, c, ds as [[| |]|]; try tauto; reflexivity.
Qed.

Lemma merge_assoc a b c : plain a -> plain b -> plain c ->
  bind (merge Shift a b) (fun ab => merge Shift ab c) = bind (merge Shift b c) (merge Shift a).
Proof.
  intros Ha Hb Hc.
  assert (forall ab, merge Shift a b = Ok ab -> plain ab) as P1 by (intros ab E; exact (merge_plain_plain a b ab Ha Hb E)).
  assert (forall bc, merge Shift b c = Ok bc -> plain bc) as P2 by (intros bc E; exact (merge_plain_plain b c bc Hb Hc E)).
  rewrite (merge_plain a b Ha Hb) in *. rewrite (merge_plain b c Hb Hc) in *.
  destruct (merge_drop (r_dropout a) (r_dropout b)) as [d1|e1] eqn:D1;
  destruct (merge_drop (r_dropout b) (r_dropout c)) as [d2|e2] eqn:D2; cbn [bind] in *.
  - rewrite (merge_plain _ c (P1 _ eq_refl) Hc), (merge_plain a _ Ha (P2 _ eq_refl)). cbn [r_dropout r_batch r_channel r_ds].
    assert (merge_drop d1 (r_dropout c) = merge_drop (r_dropout a) d2) as ->.
    { destruct (r_dropout a) as [[]|], (r_dropout b) as [[]|], (r_dropout c) as [[]|]; simpl in *;
        try discriminate; injection D1 as <-; injection D2 as <-; reflexivity. }
    destruct (merge_drop (r_dropout a) d2); cbn [bind]; auto. f_equal. f_equal.
    + unfold och. destruct (r_batch a); reflexivity.
    + unfold och. destruct (r_channel a); reflexivity.
    + destruct Ha as [_ Ha], Hb as [_ Hb], Hc as [_ Hc].
      destruct (r_ds a) as [[| |x]|]; try tauto; destruct (r_ds b) as [[| |y]|]; try tauto;
        destruct (r_ds c) as [[| |z]|]; try tauto; simpl; auto. now rewrite dshift_assoc.
  - rewrite (merge_plain _ c (P1 _ eq_refl) Hc). cbn [r_dropout].
    destruct (r_dropout a) as [[]|], (r_dropout b) as [[]|], (r_dropout c) as [[]|]; simpl in *;
      try discriminate; injection D1 as <-; try reflexivity; simpl; congruence.
  - rewrite (merge_plain a _ Ha (P2 _ eq_refl)). cbn [r_dropout].
    destruct (r_dropout a) as [[]|], (r_dropout b) as [[]|], (r_dropout c) as [[]|]; simpl in *;
      try discriminate; injection D2 as <-; try reflexivity; simpl; congruence.
  - destruct (r_dropout a) as [[]|], (r_dropout b) as [[]|], (r_dropout c) as [[]|]; simpl in *; congruence.
Qed.

Lemma merge_all_plain rs : forall acc r, plain acc -> Forall plain rs -> merge_all Shift acc rs = Ok r -> plain r.
Proof.
  induction rs as [|x rs IH]; simpl; intros acc r Ha H E; [congruence|]. inversion H; subst.
  destruct (merge Shift acc x) as [m|] eqn:Em; simpl in E; [|discriminate].
  apply (IH m r); auto. exact (merge_plain_plain acc x m Ha H2 Em).
Qed.

Lemma merge_all_acc rs : forall acc, plain acc -> Forall plain rs ->
  merge_all Shift acc rs = bind (merge_all Shift no_req rs) (merge Shift acc).
Proof.
  induction rs as [|x rs IH]; intros acc Ha H; cbn [merge_all].
  - cbn [bind]. now rewrite merge_no_r.
  - inversion H as [|? ? Hx Hrs]; subst. rewrite merge_no_l by auto. cbn [bind].
    rewrite (IH x Hx Hrs).
    destruct (merge Shift acc x) as [m|e] eqn:Em; cbn [bind].
    + rewrite (IH m) by (auto; eapply (merge_plain_plain acc x); eauto).
      destruct (merge_all Shift no_req rs) as [q|e'] eqn:Eq; cbn [bind]; auto.
      assert (plain q) as Hq by (eapply (merge_all_plain rs no_req); eauto using plain_no_req).
      pose proof (merge_assoc acc x q Ha Hx Hq) as A. rewrite Em in A. exact A.
    + destruct (merge_all Shift no_req rs) as [q|e'] eqn:Eq; cbn [bind].
      * assert (plain q) as Hq by (eapply (merge_all_plain rs no_req); eauto using plain_no_req).
        pose proof (merge_assoc acc x q Ha Hx Hq) as A. rewrite Em in A. exact A.
      * (* both failures are dropout mismatches *)
        assert (forall rs a e, plain a -> Forall plain rs -> merge_all Shift a rs = Raise e -> e = ValueError) as V.
        { clear. induction rs as [|y rs IH]; simpl; intros a e Ha H E; [discriminate|]. inversion H; subst.
          destruct (merge Shift a y) as [m|e1] eqn:Em; simpl in E.
          - apply (IH m e); auto. exact (merge_plain_plain a y m Ha H2 Em).
          - injection E as <-. rewrite merge_plain in Em by auto.
            destruct (r_dropout a) as [[]|], (r_dropout y) as [[]|]; simpl in Em; congruence. }
        rewrite (V rs no_req e' plain_no_req Hrs Eq). f_equal.
        rewrite merge_plain in Em by auto.
        destruct (r_dropout acc) as [[]|], (r_dropout x) as [[]|]; simpl in Em; congruence.
Qed.

Lemma merge_all_app rs1 : forall rs2 acc,
  merge_all Shift acc (rs1 ++ rs2) = bind (merge_all Shift acc rs1) (fun a => merge_all Shift a rs2).
Proof.
  induction rs1 as [|x rs1 IH]; simpl; intros; auto. destruct (merge Shift acc x); simpl; auto.
Qed.

Lemma input_req_app rs1 rs2 : Forall plain rs1 -> Forall plain rs2 ->
  input_req Shift (rs1 ++ rs2) = bind (input_req Shift rs1) (fun a => bind (input_req Shift rs2) (merge Shift a)).
Proof.
  intros H1 H2. unfold input_req. rewrite merge_all_app.
  destruct (merge_all Shift no_req rs1) as [a|] eqn:E; cbn [bind]; auto.
  apply merge_all_acc; auto. eapply (merge_all_plain rs1 no_req); eauto using plain_no_req.
Qed.

Lemma input_req_plain rs r : Forall plain rs -> input_req Shift rs = Ok r -> plain r.
Proof. intros H E. eapply (merge_all_plain rs no_req); eauto using plain_no_req. Qed.

(** Requirement of a grouping: grouping does not matter. *)
Lemma input_req_concat (groups : list (list req)) : Forall (Forall plain) groups ->
  input_req Shift (concat groups) =
  bind (mapR (input_req Shift) groups) (input_req Shift).
Proof.
  induction 1 as [|g gs Hg Hgs IH]; [reflexivity|]. cbn [concat mapR].
  rewrite input_req_app by (auto; apply Forall_concat; auto). rewrite IH.
  destruct (input_req Shift g) as [r|] eqn:Er; cbn [bind]; auto.
  pose proof (input_req_plain g r Hg Er) as Hr.
  destruct (mapR (input_req Shift) gs) as [rs|] eqn:Ers; cbn [bind rmap]; auto.
  assert (Forall plain rs) as Hrs.
  { clear - Hgs Ers. revert rs Ers. induction Hgs as [|h hs Hh _ IH]; simpl; intros rs E.
    - injection E as <-; constructor.
    - destruct (input_req Shift h) eqn:E1; simpl in E; [|discriminate].
      destruct (mapR (input_req Shift) hs) eqn:E2; simpl in E; [|discriminate]. injection E as <-.
      constructor; auto. eapply input_req_plain; eauto. }
  unfold input_req. cbn [merge_all]. rewrite merge_no_l by auto. cbn [bind].
  rewrite (merge_all_acc rs r) by auto. reflexivity.
Qed.

(** ** The checks, for plain requirements *)
Definition blocked (v : option dval) : Prop := exists d, v = Some (DD d) /\ d_in d = NO.

Definition diag_ok (r : req) (u : user) (m : meta) : Prop :=
  (u_db u = Some false -> is_True (m_db m) = false)
  /\ (u_ds u = Some false -> is_True (m_ds m) = false)
  /\ (u_ds u = Some true -> ~ blocked (r_ds r))
  /\ (is_True (m_ds m) = true -> u_ds u = None -> ~ blocked (r_ds r)).
Definition batch_ok (r : req) (m : meta) : Prop := forall v, r_batch r = Some v -> m_batch m = Z.modulo v (m_ndim m).
Definition channel_ok (r : req) (m : meta) : Prop := forall v, r_channel r = Some (Some v) -> m_channel m = Z.modulo v (m_ndim m).

Lemma blocked_dec v : match v with Some (DD d) => tri_eqb (d_in d) NO = true <-> blocked v | _ => ~ blocked v end.
Proof.
  destruct v as [[| |d]|]; try (intros (d & E & _); discriminate).
  split.
  - intros E. exists d; split; auto. destruct (d_in d); auto; discriminate.
  - intros (d' & E & H). injection E as ->. now rewrite H.
Qed.

Lemma check_spec r u m : plain r -> check r u m = Ok tt <-> diag_ok r u m /\ batch_ok r m /\ channel_ok r m.
Proof.
  intros [Hdb Hds]. destruct r as [dr ba ch db ds]; simpl in *; subst db.
  unfold check, fuse, diag_ok, batch_ok, channel_ok. cbn [r_db r_ds r_batch r_channel r_dropout].
  assert ((match ba with Some v => negb (Z.eqb (m_batch m) (v mod m_ndim m)) | None => false end) = false
          <-> (forall v, ba = Some v -> m_batch m = Z.modulo v (m_ndim m))) as HB.
  { destruct ba as [v|]; [|split; auto; congruence].
    rewrite negb_false_iff, Z.eqb_eq. split; [intros E v' E'; congruence|auto]. }
  assert ((match (match ch with Some c => c | None => None end) with Some v => negb (Z.eqb (m_channel m) (v mod m_ndim m)) | None => false end) = false
          <-> (forall v, ch = Some (Some v) -> m_channel m = Z.modulo v (m_ndim m))) as HC.
  { destruct ch as [[v|]|]; try (split; auto; congruence).
    rewrite negb_false_iff, Z.eqb_eq. split; [intros E v' E'; congruence|auto]. }
  assert (forall (b : bool), (if b then Raise ValueError else Ok tt) = Ok tt <-> b = false) as HI
    by (intros []; split; congruence).
  destruct u as [udb uds]; cbn [u_db u_ds].
  destruct uds as [[|]|]; cbn [fuse_val].
  - pose proof (blocked_dec ds) as Bd.
    destruct ds as [[| |d]|]; try tauto; cbn [insufficient andb].
    + destruct (tri_eqb (d_in d) NO) eqn:Ed; cbn [bind rmap].
      * split; [destruct udb as [[|]|]; discriminate|]. intros ((_ & _ & N & _) & _). exfalso. apply N; auto. now apply Bd.
      * assert (~ blocked (Some (DD d))) as Nb by (intros B; apply Bd in B; congruence).
        destruct udb as [[|]|]; cbn [fuse_val bind rmap r_db r_ds r_batch r_channel insufficient];
          rewrite HI, ?andb_false_r, ?andb_true_r, ?orb_false_r; cbn [orb]; rewrite ?orb_false_iff, HB, HC; intuition congruence.
    + destruct udb as [[|]|]; cbn [fuse_val bind rmap r_db r_ds r_batch r_channel insufficient];
          rewrite HI, ?andb_false_r, ?andb_true_r, ?orb_false_r; cbn [orb]; rewrite ?orb_false_iff, HB, HC; intuition congruence.
  - assert ((match ds with Some v => if false && insufficient v then Raise ValueError else Ok (Some (DB false)) | None => Ok (Some (DB false)) end)
             = Ok (Some (DB false))) as -> by (destruct ds; reflexivity).
    destruct udb as [[|]|]; cbn [fuse_val bind rmap r_db r_ds r_batch r_channel insufficient];
      rewrite HI, ?andb_false_r, ?andb_true_r, ?orb_false_r; cbn [orb]; rewrite ?orb_false_iff, HB, HC; intuition congruence.
  - pose proof (blocked_dec ds) as Bd.
    assert ((match ds with Some v => is_True (m_ds m) && insufficient v | None => false end) = false
            <-> (is_True (m_ds m) = true -> ~ blocked ds)) as HD.
    { destruct ds as [[| |d]|]; try tauto; cbn [insufficient].
      - rewrite andb_false_iff. split.
        + intros [E|E] H B; [congruence|]. apply Bd in B; congruence.
        + intros H. destruct (is_True (m_ds m)); auto. right. destruct (tri_eqb (d_in d) NO) eqn:Ed; auto.
          exfalso. apply H; auto. now apply Bd. }
    assert ((match ds with Some v => Ok (Some v) | None => Ok None end : result (option dval)) = Ok ds) by (destruct ds; reflexivity).
    destruct udb as [[|]|]; cbn [fuse_val bind rmap r_db r_ds r_batch r_channel insufficient];
      destruct ds as [dv|]; cbn [fuse_val bind rmap r_db r_ds r_batch r_channel insufficient];
      rewrite HI, ?andb_false_r, ?andb_true_r, ?orb_false_r; cbn [orb];
      rewrite ?orb_false_iff, ?HB, ?HC, ?HD; intuition congruence.
Qed.

Lemma check_raise r u m : check r u m = Ok tt \/ exists e, check r u m = Raise e.
Proof. destruct (check r u m) as [[]|e]; eauto. Qed.

(** ** Splitting a requirement *)
Section Merged.
Variables a b r : req.
Hypothesis Ha : plain a.
Hypothesis Hb : plain b.
Hypothesis E : merge Shift a b = Ok r.

Lemma merged : r_batch r = och (r_batch a) (r_batch b) /\ r_channel r = och (r_channel a) (r_channel b)
  /\ r_ds r = ods (r_ds a) (r_ds b).
Proof.
  rewrite merge_plain in E by auto. destruct (merge_drop _ _); simpl in E; [|discriminate].
  injection E as <-. auto.
Qed.

Lemma blocked_l : blocked (r_ds a) -> blocked (r_ds r).
Proof.
  destruct merged as (_ & _ & ->). intros (d & -> & H). destruct Hb as [_ Hb'].
  destruct (r_ds b) as [[| |y]|]; try tauto; simpl; [|exists d; auto].
  exists (dshift d y); split; auto. pose proof (dshift_in_le d y). rewrite H in *.
  destruct (d_in (dshift d y)); simpl in *; auto; lia.
Qed.

Lemma blocked_r : ~ outputs_yes a -> blocked (r_ds b) -> blocked (r_ds r).
Proof.
  destruct merged as (_ & _ & ->). intros Ho (d & -> & H). destruct Ha as [_ Ha'].
  destruct (r_ds a) as [[| |x]|] eqn:Ex; try tauto; simpl; [|exists d; auto].
  exists (dshift x d); split; auto. apply dshift_blocked; auto.
  intros Hy. apply Ho. exists (d_in x). rewrite Ex. destruct x; simpl in *; congruence.
Qed.

Lemma yes_merged : outputs_yes r <-> outputs_yes a \/ outputs_yes b.
Proof.
  unfold outputs_yes. destruct merged as (_ & _ & ->). destruct Ha as [_ Ha'], Hb as [_ Hb'].
  assert (forall d, (exists i, Some (DD d) = Some (DD (mkD i YES))) <-> d_out d = YES) as Q.
  { intros [i o]; simpl. split; [intros (j & Ej); congruence|intros ->; eauto]. }
  destruct (r_ds a) as [[| |x]|]; try tauto; destruct (r_ds b) as [[| |y]|]; try tauto; cbn [ods].
  - rewrite !Q. apply dshift_out.
  - rewrite !Q. split; [auto|]. intros [H|(i & H)]; [auto|discriminate].
  - rewrite !Q. split; [auto|]. intros [(i & H)|H]; [discriminate|auto].
Qed.
End Merged.

Lemma yes_all rs : forall r, Forall plain rs -> input_req Shift rs = Ok r ->
  (outputs_yes r <-> exists x, In x rs /\ outputs_yes x).
Proof.
  induction rs as [|x rs IH]; intros r H E.
  - injection E as <-. split; [intros (i & E); discriminate|intros (x & [] & _)].
  - inversion H as [|? ? Hx Hrs]; subst.
    pose proof (input_req_app [x] rs ltac:(auto) Hrs) as A. simpl app in A. rewrite E in A.
    unfold input_req at 1 in A. cbn [merge_all] in A. rewrite merge_no_l in A by auto. cbn [bind] in A.
    destruct (input_req Shift rs) as [q|] eqn:Eq; cbn [bind] in A; [|discriminate].
    pose proof (input_req_plain _ _ Hrs Eq) as Hq.
    rewrite (yes_merged x q r Hx Hq (eq_sym A)). rewrite (IH q Hrs eq_refl). split.
    + intros [Hy|(y & Hy & Y)]; [exists x; split; [now left|auto]|exists y; split; [now right|auto]].
    + intros (y & [->|Hy] & Y); [now left|right; eauto].
Qed.
