(** Proofs about [serial] and [repeat]. *)
From Coq Require Import List Arith ZArith Lia Bool.
From Verif Require Import Base Model_Get Model_Req Spec_Req Proof_Req.
Import ListNotations.

Section Serial.
Context {K Sh X P : Type} (meta_of : K -> meta) (shape_of : K -> Sh) (set_shape : Sh -> K -> K).
Notation layer := (layer (K := K) (Sh := Sh) (X := X) (P := params P)).
Notation net := (net (K := K) (Sh := Sh) (X := X) (P := P)).
Notation run := (run meta_of shape_of set_shape).
Notation run_all := (run_all meta_of shape_of set_shape).
Notation build := (build meta_of shape_of set_shape).
Notation serial := (serial meta_of shape_of set_shape).
Notation wb := (well_behaved meta_of set_shape).
Notation reqs ls := (map (@l_req K Sh X (params P)) ls).
Context (Lens : shape_lens shape_of set_shape).

Lemma run_all_app (l1 l2 : list layer) u k : run_all (l1 ++ l2) u k = bind (run_all l1 u k) (run_all l2 u).
Proof using Type. revert k; induction l1; simpl; intros; auto. destruct (run a u k); simpl; auto. Qed.

Lemma shape_all_app (l1 l2 : list layer) s : shape_all (l1 ++ l2) s = bind (shape_all l1 s) (shape_all l2).
Proof using Type. revert s; induction l1; simpl; intros; auto. destruct (l_shape a s); simpl; auto. Qed.

Lemma run_inv (l : layer) u k k' : run l u k = Ok k' ->
  check (l_req l) u (meta_of k) = Ok tt /\ exists k1 s, l_body l u k = Ok k1 /\ l_shape l (shape_of k) = Ok s /\ k' = set_shape s k1.
Proof using Type.
  unfold Model_Req.run. destruct (check _ _ _) as [[]|]; simpl; [|discriminate]. split; auto.
  destruct (l_body l u k) as [k1|]; simpl in *; [|discriminate].
  destruct (l_shape l (shape_of k)) as [s|]; simpl in *; [|discriminate].
  injection H as <-. eauto.
Qed.

Lemma run_shape (l : layer) u k k' : run l u k = Ok k' -> l_shape l (shape_of k) = Ok (shape_of k').
Proof using Lens.
  intros H. destruct (run_inv l u k k' H) as (_ & k1 & s & _ & Hs & ->). now rewrite (proj1 Lens).
Qed.

Lemma run_all_shape (ls : list layer) u : forall k k', run_all ls u k = Ok k' -> shape_all ls (shape_of k) = Ok (shape_of k').
Proof using Lens.
  induction ls as [|l ls IH]; simpl; intros k k' H; [congruence|].
  destruct (run l u k) as [k1|] eqn:E; simpl in H; [|discriminate].
  rewrite (run_shape l u k k1 E); simpl. auto.
Qed.

Lemma wb_plain (ls : list layer) : Forall wb ls -> Forall plain (reqs ls).
Proof using Type. induction 1 as [|l ls [H _] _ IH]; constructor; auto. Qed.

(** (G1) information dropped stays dropped *)
Lemma keeps (ls : list layer) u : Forall wb ls -> forall k k', run_all ls u k = Ok k' ->
  (is_True (m_db (meta_of k')) = true -> is_True (m_db (meta_of k)) = true)
  /\ (is_True (m_ds (meta_of k')) = true ->
      is_True (m_ds (meta_of k)) = true /\ forall l, In l ls -> ~ outputs_yes (l_req l)).
Proof using Type.
  induction 1 as [|l ls Hl _ IH]; simpl; intros k k' H.
  - injection H as <-. auto.
  - destruct (run l u k) as [k1|] eqn:E; simpl in H; [|discriminate].
    destruct (run_inv l u k k1 E) as (_ & kb & s & Hb & _ & ->).
    destruct (proj2 Hl u k kb s Hb) as (A1 & A2 & _). destruct (IH _ _ H) as (B1 & B2). split; [auto|].
    intros Ht. destruct (B2 Ht) as (C1 & C2). destruct (A2 C1) as (D1 & D2). split; auto.
    intros l' [<-|Hin]; auto.
Qed.

Lemma input_req_cons r rs : plain r -> Forall plain rs ->
  input_req Shift (r :: rs) = bind (input_req Shift rs) (merge Shift r).
Proof using Type.
  intros Hr Hrs. pose proof (input_req_app [r] rs ltac:(auto) Hrs) as A. simpl app in A. rewrite A.
  unfold input_req at 1. cbn [merge_all]. rewrite merge_no_l by auto. reflexivity.
Qed.

(** (G2) the axis checks of a group follow from those of its members *)
Lemma axes_ok (ls : list layer) u : Forall wb ls -> forall k k' r, input_req Shift (reqs ls) = Ok r -> run_all ls u k = Ok k' ->
  batch_ok r (meta_of k) /\ channel_ok r (meta_of k).
Proof using Type.
  induction 1 as [|l ls Hl Hls IH]; intros k k' r Er H.
  - injection Er as <-. split; intros v E; discriminate.
  - cbn [map] in Er. rewrite input_req_cons in Er by (auto using wb_plain; apply Hl).
    destruct (input_req Shift (reqs ls)) as [q|] eqn:Eq; cbn [bind] in Er; [|discriminate].
    cbn [Model_Req.run_all] in H. destruct (run l u k) as [k1|] eqn:E; cbn [bind] in H; [|discriminate].
    destruct (run_inv l u k k1 E) as (Hc & kb & s & Hb & _ & ->).
    apply check_spec in Hc; [|apply Hl]. destruct Hc as (_ & B & C).
    destruct (IH _ _ _ eq_refl H) as (B' & C').
    destruct (merged _ _ _ (proj1 Hl) (input_req_plain _ _ (wb_plain _ Hls) Eq) Er) as (Eb & Ec & _).
    destruct (proj2 Hl u k kb s Hb) as (_ & _ & TB & TC).
    split; intros v Ev.
    + rewrite Eb in Ev. unfold och in Ev. destruct (r_batch (l_req l)) as [z|] eqn:Ez.
      * apply B; congruence.
      * destruct (TB eq_refl) as [<- <-]. now apply B'.
    + rewrite Ec in Ev. unfold och in Ev. destruct (r_channel (l_req l)) as [z|] eqn:Ez.
      * apply C; congruence.
      * destruct (TC eq_refl) as [<- <-]. now apply C'.
Qed.

Lemma all_yes_not_blocked rs : forall r, Forall plain rs ->
  (forall x, In x rs -> match r_ds x with Some (DD d) => d_in d = YES | _ => True end) ->
  input_req Shift rs = Ok r -> match r_ds r with Some (DD d) => d_in d = YES | _ => True end.
Proof using Type.
  induction rs as [|x rs IH]; intros r H Hy E.
  - injection E as <-. exact I.
  - inversion H as [|? ? Hx Hrs]; subst. rewrite input_req_cons in E by auto.
    destruct (input_req Shift rs) as [q|] eqn:Eq; cbn [bind] in E; [|discriminate].
    pose proof (IH q Hrs (fun y Hin => Hy y (or_intror Hin)) eq_refl) as Hq.
    destruct (merged _ _ _ Hx (input_req_plain _ _ Hrs Eq) E) as (_ & _ & ->).
    pose proof (Hy x (or_introl eq_refl)) as Hx'.
    destruct Hx as [_ Hx]. pose proof (proj2 (input_req_plain _ _ Hrs Eq)) as Hq'.
    destruct (r_ds x) as [[| |[i o]]|]; try tauto; destruct (r_ds q) as [[| |[i' o']]|]; try tauto; simpl in *; auto.
    subst. destruct o, o'; reflexivity.
Qed.

(** (G3) the layout checks of a group follow from that of the whole *)
Lemma diag_group (pre grp post : list layer) u k k' r g : Forall wb (pre ++ grp ++ post) ->
  request_compatible u (pre ++ grp ++ post) ->
  input_req Shift (reqs (pre ++ grp ++ post)) = Ok r -> input_req Shift (reqs grp) = Ok g ->
  diag_ok r u (meta_of k) -> run_all pre u k = Ok k' -> diag_ok g u (meta_of k').
Proof using Type.
  intros Hw Hu Er Eg (D1 & D2 & D3 & D4) Hrun.
  apply Forall_app in Hw. destruct Hw as [Hpre Hw]. apply Forall_app in Hw. destruct Hw as [Hgrp Hpost].
  destruct (keeps pre u Hpre k k' Hrun) as [K1 K2].
  rewrite !map_app in Er.
  rewrite input_req_app in Er by (try apply Forall_app; auto using wb_plain).
  destruct (input_req Shift (reqs pre)) as [a|] eqn:Ea; cbn [bind] in Er; [|discriminate].
  rewrite input_req_app in Er by auto using wb_plain. rewrite Eg in Er. cbn [bind] in Er.
  destruct (input_req Shift (reqs post)) as [p|] eqn:Ep; cbn [bind] in Er; [|discriminate].
  destruct (merge Shift g p) as [gp|] eqn:Egp; cbn [bind] in Er; [|discriminate].
  pose proof (input_req_plain _ _ (wb_plain _ Hpre) Ea) as Pa.
  pose proof (input_req_plain _ _ (wb_plain _ Hgrp) Eg) as Pg.
  pose proof (input_req_plain _ _ (wb_plain _ Hpost) Ep) as Pp.
  pose proof (merge_plain_plain _ _ _ Pg Pp Egp) as Pgp.
  assert ((forall l, In l pre -> ~ outputs_yes (l_req l)) -> blocked (r_ds g) -> blocked (r_ds r)) as Block.
  { intros Hno Hb. apply (blocked_r a gp r Pa Pgp Er).
    - intros Hy. apply (yes_all _ _ (wb_plain _ Hpre) Ea) in Hy. destruct Hy as (x & Hx & Y).
      apply in_map_iff in Hx. destruct Hx as (l & <- & Hl). exact (Hno l Hl Y).
    - exact (blocked_l g p gp Pg Pp Egp Hb). }
  split; [|split; [|split]].
  - intros E. destruct (is_True (m_db (meta_of k'))); auto. rewrite D1 in K1 by auto. symmetry. now apply K1.
  - intros E. destruct (is_True (m_ds (meta_of k'))); auto. destruct (K2 eq_refl) as [T _]. rewrite D2 in T by auto. congruence.
  - intros E Hb.
    (* is there a layer discarding the off-diagonals before the group? *)
    assert ((exists l1 x l2, pre = l1 ++ x :: l2 /\ outputs_yes (l_req x)) \/ (forall l, In l pre -> ~ outputs_yes (l_req l))) as [Y|N].
    { clear. induction pre as [|x pre IH]; [right; intros l []|].
      assert (outputs_yes (l_req x) \/ ~ outputs_yes (l_req x)) as [Hy|Hn].
      { unfold outputs_yes. destruct (r_ds (l_req x)) as [[| |[i []]]|]; try (right; intros (j & E); discriminate).
        left; eauto. }
      - left. exists [], x, pre; auto.
      - destruct IH as [(l1 & y & l2 & -> & Hy)|IH].
        + left. exists (x :: l1), y, l2; auto.
        + right. intros l [<-|Hl]; auto. }
    + destruct Y as (l1 & x & l2 & -> & Hy).
      assert (match r_ds g with Some (DD d) => d_in d = YES | _ => True end) as Hg.
      { apply (all_yes_not_blocked (reqs grp) g); auto using wb_plain.
        intros q Hq. apply in_map_iff in Hq. destruct Hq as (b & <- & Hb').
        apply (Hu E l1 x (l2 ++ grp ++ post)); auto.
        - now rewrite <- app_assoc.
        - rewrite !in_app_iff; auto. }
      destruct Hb as (d & Ed & Hd). rewrite Ed in Hg. congruence.
    + apply (D3 E). auto.
  - intros T E Hb. destruct (K2 T) as [T' N]. apply (D4 T' E). auto.
Qed.

(** ** Bracketings *)
Section NetInd.
Variable Q : net -> Prop.
Hypothesis HL : forall l, Q (Leaf l).
Hypothesis HS : forall ts, Forall Q ts -> Q (Ser ts).
Fixpoint net_ind' (t : net) : Q t :=
  match t with
  | Leaf l => HL l
  | Ser ts => HS ts ((fix go ts : Forall Q ts :=
      match ts with [] => Forall_nil _ | t :: ts' => Forall_cons _ (net_ind' t) (go ts') end) ts)
  end.
End NetInd.

Lemma mapR_Forall2 {A B} (f : A -> result B) l r : mapR f l = Ok r <-> Forall2 (fun x y => f x = Ok y) l r.
Proof using Type.
  revert r; induction l as [|x l IH]; intros r; simpl.
  - split; [intros E; injection E as <-; constructor|inversion 1; auto].
  - split.
    + destruct (f x) eqn:E1; simpl; [|discriminate]. destruct (mapR f l) eqn:E2; simpl; [|discriminate].
      intros E; injection E as <-. constructor; auto. now apply IH.
    + inversion 1 as [|? y ? r' H1 H2]; subst. rewrite H1; simpl. apply IH in H2. now rewrite H2.
Qed.

Lemma build_ser (ts : list net) l : build (Ser ts) = Ok l ->
  exists ls r, Forall2 (fun t l => build t = Ok l) ts ls /\ input_req Shift (reqs ls) = Ok r
    /\ l = mkLayer r (fun u k => run_all ls u k) (shape_all ls) (apply_node ls) /\ ls <> [].
Proof using Type.
  cbn [Spec_Req.build]. destruct (mapR build ts) as [ls|] eqn:E; cbn [bind]; [|discriminate].
  apply mapR_Forall2 in E. unfold Model_Req.serial. destruct ls as [|x ls]; [discriminate|].
  destruct (input_req Shift (reqs (x :: ls))) as [r|] eqn:Er; cbn [rmap]; [|discriminate].
  intros H; injection H as <-. exists (x :: ls), r. split; [exact E|]. split; [exact Er|]. split; [reflexivity|discriminate].
Qed.

Lemma build_req (t : net) : forall l, build t = Ok l -> Forall wb (leaves t) ->
  input_req Shift (reqs (leaves t)) = Ok (l_req l) /\ forall s, l_shape l s = shape_all (leaves t) s.
Proof using Type.
  induction t as [l0|ts IH] using net_ind'; intros l E Hw.
  - injection E as <-. simpl in Hw. inversion Hw as [|? ? Hl _]; subst. split.
    + unfold input_req. simpl. rewrite merge_no_l by apply Hl. reflexivity.
    + intros s. simpl. destruct (l_shape l0 s); reflexivity.
  - apply build_ser in E. destruct E as (ls & r & HF & Er & -> & _). cbn [l_req l_shape leaves] in *.
    assert (mapR (input_req Shift) (map (fun t => reqs (leaves t)) ts) = Ok (reqs ls)
            /\ Forall (Forall plain) (map (fun t => reqs (leaves t)) ts)
            /\ forall s, shape_all ls s = shape_all (flat_map leaves ts) s) as (H1 & H2 & H3).
    { clear Er. revert ls HF. induction IH as [|t ts Ht _ IHts]; intros ls HF; inversion HF as [|? l ? ls' Hl HF']; subst.
      - cbn. repeat split; auto.
      - cbn [flat_map] in Hw. apply Forall_app in Hw. destruct Hw as [Hw1 Hw2].
        destruct (Ht l Hl Hw1) as [A B]. destruct (IHts Hw2 ls' HF') as (C1 & C2 & C3).
        cbn [map mapR flat_map]. rewrite A, C1. cbn [bind rmap]. split; auto. split.
        + constructor; auto using wb_plain.
        + intros s. rewrite shape_all_app. cbn [shape_all]. rewrite B.
          destruct (shape_all (leaves t) s); cbn [bind]; auto. }
    split; [|exact H3].
    assert (reqs (flat_map leaves ts) = concat (map (fun t => reqs (leaves t)) ts)) as ->.
    { clear. induction ts; simpl; auto. now rewrite map_app, IHts. }
    rewrite input_req_concat by auto. rewrite H1. exact Er.
Qed.

(** A bracketing that succeeds gives what the layers give in turn. *)
Lemma nested_flat (t : net) : forall l u k k', build t = Ok l -> Forall wb (leaves t) -> run l u k = Ok k' ->
  run_all (leaves t) u k = Ok k'.
Proof using Lens.
  induction t as [l0|ts IH] using net_ind'; intros l u k k' E Hw H.
  - injection E as <-. cbn [leaves Model_Req.run_all]. now rewrite H.
  - pose proof E as E0. apply build_ser in E. destruct E as (ls & r & HF & Er & -> & _).
    destruct (run_inv _ _ _ _ H) as (_ & k1 & s & Hb & Hs & ->). cbn [l_body l_shape] in *.
    assert (run_all (flat_map leaves ts) u k = Ok k1) as Hf.
    { clear - IH HF Hb Hw. revert ls HF k Hb.
      induction IH as [|t ts Ht _ IHts]; intros ls HF k Hb; inversion HF as [|? l ? ls' Hl HF']; subst; auto.
      cbn [flat_map] in *. apply Forall_app in Hw. destruct Hw as [Hw1 Hw2].
      rewrite run_all_app. cbn [Model_Req.run_all] in Hb.
      destruct (run l u k) as [km|] eqn:Em; cbn [bind] in Hb; [|discriminate].
      rewrite (Ht l u k km Hl Hw1 Em). cbn [bind]. eapply IHts; eauto. }
    rewrite (run_all_shape _ u _ _ Hb) in Hs. injection Hs as <-. now rewrite (proj1 (proj2 Lens)).
Qed.

(** And conversely, once the check of the whole has passed. *)
Lemma flat_nested (t : net) : forall pre post l u k0 k k' r, build t = Ok l ->
  Forall wb (pre ++ leaves t ++ post) -> request_compatible u (pre ++ leaves t ++ post) ->
  input_req Shift (reqs (pre ++ leaves t ++ post)) = Ok r -> diag_ok r u (meta_of k0) ->
  run_all pre u k0 = Ok k -> run_all (leaves t) u k = Ok k' ->
  run l u k = Ok k'.
Proof using Lens.
  induction t as [l0|ts IH] using net_ind'; intros pre post l u k0 k k' r E Hw Hu Er Hd Hp H.
  - injection E as <-. cbn [leaves Model_Req.run_all] in H. destruct (run l0 u k); cbn [bind] in H; congruence.
  - pose proof E as E0. apply build_ser in E. destruct E as (ls & rr & HF & Err & -> & _).
    assert (Forall wb (leaves (Ser ts))) as Hwt.
    { apply Forall_app in Hw. destruct Hw as [_ Hw]. apply Forall_app in Hw. tauto. }
    destruct (build_req _ _ E0 Hwt) as [Rt _]. cbn [l_req] in Rt.
    assert (check rr u (meta_of k) = Ok tt) as Hc.
    { apply check_spec; [exact (input_req_plain _ _ (wb_plain _ Hwt) Rt)|]. split.
      - exact (diag_group pre (leaves (Ser ts)) post u k0 k r rr Hw Hu Er Rt Hd Hp).
      - exact (axes_ok _ u Hwt k k' rr Rt H). }
    assert (run_all ls u k = Ok k') as Hb.
    { clear E0 Rt Hc Err rr. cbn [leaves] in *.
      revert ls HF pre k Hw Hu Er Hp H. clear Hwt.
      induction IH as [|t ts Ht _ IHts]; intros ls HF pre k Hw Hu Er Hp H; inversion HF as [|? l ? ls' Hl HF']; subst; auto.
      cbn [flat_map] in *. rewrite run_all_app in H.
      destruct (run_all (leaves t) u k) as [km|] eqn:Em; cbn [bind] in H; [|discriminate].
      rewrite <- app_assoc in Hw, Hu, Er.
      cbn [Model_Req.run_all].
      rewrite (Ht pre (flat_map leaves ts ++ post) l u k0 k km r Hl Hw Hu Er Hd Hp Em). cbn [bind].
      apply (IHts ls' HF' (pre ++ leaves t) km); rewrite <- ?app_assoc; auto.
      rewrite run_all_app, Hp. exact Em. }
    unfold Model_Req.run. cbn [l_req l_body l_shape]. rewrite Hc. cbn [bind]. rewrite Hb. cbn [bind].
    rewrite (run_all_shape _ u _ _ Hb). cbn [rmap]. now rewrite (proj1 (proj2 Lens)).
Qed.

Lemma leaves_nonempty (t : net) : nonempty t = true -> leaves t <> [].
Proof using Type.
  induction t as [l|ts IH] using net_ind'; simpl; [discriminate|]. rewrite andb_true_iff.
  intros [H1 H2]. destruct IH as [|t ts Ht _]; [discriminate|]. simpl in *. apply andb_true_iff in H2.
  intros E. apply app_eq_nil in E. exact (Ht (proj1 H2) (proj1 E)).
Qed.

(** Building fails for a bracketing exactly when it fails for the flat list. *)
Lemma build_serial (t : net) : Forall wb (leaves t) -> nonempty t = true ->
  (exists l, build t = Ok l) <-> (exists l, serial (leaves t) = Ok l).
Proof using Type.
  intros Hw Hn.
  assert (forall t, Forall wb (leaves t) -> nonempty t = true ->
     (exists l, build t = Ok l) <-> exists r, input_req Shift (reqs (leaves t)) = Ok r) as A.
  { clear t Hw Hn. induction t as [l0|ts IH] using net_ind'; intros Hw Hn.
    - simpl in Hw. inversion Hw; subst. simpl. unfold input_req. simpl. rewrite merge_no_l by apply H1.
      cbn [bind]. split; eauto.
    - split.
      + intros (l & E). exists (l_req l). now apply build_req.
      + intros (r & E). cbn [leaves nonempty] in *. apply andb_true_iff in Hn. destruct Hn as [Hn0 Hn].
        assert (reqs (flat_map leaves ts) = concat (map (fun t => reqs (leaves t)) ts)) as Ec.
        { clear. induction ts; simpl; auto. now rewrite map_app, IHts. }
        rewrite Ec in E. rewrite input_req_concat in E.
        2:{ clear - Hw. induction ts; simpl in *; constructor; apply Forall_app in Hw; destruct Hw; auto using wb_plain. }
        destruct (mapR (input_req Shift) (map (fun t => reqs (leaves t)) ts)) as [rs|] eqn:Ers; cbn [bind] in E; [|discriminate].
        apply mapR_Forall2 in Ers.
        assert (exists ls, Forall2 (fun t l => build t = Ok l) ts ls /\ reqs ls = rs) as (ls & HF & Hr).
        { clear - IH Hw Hn Ers. revert rs Ers.
          induction IH as [|t ts Ht _ IHts]; intros rs Ers; inversion Ers as [|? r ? rs' Hr Ers']; subst.
          - exists []; auto.
          - cbn [flat_map forallb] in *. apply Forall_app in Hw. destruct Hw as [Hw1 Hw2]. apply andb_true_iff in Hn.
            destruct (proj2 (Ht Hw1 (proj1 Hn)) (ex_intro _ r Hr)) as (l & El).
            destruct (IHts Hw2 (proj2 Hn) rs' Ers') as (ls & HF & Hrs).
            exists (l :: ls). split; [constructor; auto|]. cbn [map]. f_equal; auto.
            destruct (build_req t l El Hw1) as [Q _]. congruence. }
        cbn [Spec_Req.build]. apply mapR_Forall2 in HF. rewrite HF. cbn [bind]. unfold Model_Req.serial.
        destruct ls as [|x ls].
        * apply mapR_Forall2 in HF. inversion HF; subst. discriminate.
        * rewrite Hr, E. cbn [rmap]. eauto. }
  rewrite A by auto. unfold Model_Req.serial. pose proof (leaves_nonempty t Hn) as N.
  destruct (leaves t) as [|x ls]; [congruence|].
  split.
  - intros (r & E). rewrite E. cbn [rmap]. eauto.
  - intros (l & E). destruct (input_req Shift (reqs (x :: ls))); [eauto|discriminate].
Qed.

Lemma serial_inv (ls : list layer) l : serial ls = Ok l ->
  input_req Shift (reqs ls) = Ok (l_req l) /\ (forall u k, l_body l u k = run_all ls u k)
  /\ (forall s, l_shape l s = shape_all ls s) /\ (forall p x, l_apply l p x = apply_node ls p x).
Proof using Type.
  unfold Model_Req.serial. destruct ls as [|x ls]; [discriminate|].
  destruct (input_req Shift (reqs (x :: ls))) as [r|] eqn:E; cbn [rmap]; [|discriminate].
  intros H; injection H as <-. cbn [l_req l_body l_shape l_apply]. auto.
Qed.

Theorem serial_assoc (t : net) l f : build t = Ok l -> serial (leaves t) = Ok f -> Forall wb (leaves t) ->
  l_req l = l_req f
  /\ (forall s, l_shape l s = l_shape f s)
  /\ (forall u k, request_compatible u (leaves t) -> same_outcome (run l u k) (run f u k)).
Proof using Lens.
  intros El Ef Hw. destruct (serial_inv _ _ Ef) as (Rf & Bf & Sf & _). destruct (build_req t l El Hw) as [Rl Sl].
  assert (l_req l = l_req f) as Hr by congruence. split; auto. split; [intros; now rewrite Sl, Sf|].
  intros u k Hu.
  assert (forall k', run f u k = Ok k' -> run l u k = Ok k') as FN.
  { intros k' H. destruct (run_inv _ _ _ _ H) as (Hc & k1 & s & Hb & Hs & ->). rewrite Bf in Hb. rewrite Sf in Hs.
    rewrite (run_all_shape _ u _ _ Hb) in Hs. injection Hs as <-. rewrite (proj1 (proj2 Lens)).
    apply (flat_nested t [] [] l u k k k1 (l_req f)); cbn [app]; rewrite ?app_nil_r; auto.
    apply check_spec in Hc; [tauto|]. exact (input_req_plain _ _ (wb_plain _ Hw) Rf). }
  assert (forall k', run l u k = Ok k' -> run f u k = Ok k') as NF.
  { intros k' H. pose proof (nested_flat t l u k k' El Hw H) as Hf.
    destruct (run_inv _ _ _ _ H) as (Hc & _). unfold Model_Req.run. rewrite <- Hr, Hc. cbn [bind].
    rewrite Bf, Hf. cbn [bind]. rewrite Sf, (run_all_shape _ u _ _ Hf). cbn [rmap]. now rewrite (proj1 (proj2 Lens)). }
  destruct (run l u k) as [a|] eqn:Ea, (run f u k) as [b|] eqn:Eb; simpl; auto.
  - pose proof (NF a eq_refl); congruence.
  - pose proof (NF a eq_refl); congruence.
  - pose proof (FN b eq_refl); congruence.
Qed.

(** ** apply_fn *)
Lemma apply_all_app (l1 l2 : list layer) : forall p1 p2 x, length l1 = length p1 ->
  apply_all (l1 ++ l2) (p1 ++ p2) x = bind (apply_all l1 p1 x) (apply_all l2 p2).
Proof using Type.
  induction l1 as [|l l1 IH]; destruct p1 as [|p p1]; simpl; intros p2 x E; try discriminate; auto.
  destruct (l_apply l p x); simpl; auto.
Qed.

Scheme par_ind' := Minimality for par_flat Sort Prop
with f3_ind' := Minimality for Forall3 Sort Prop.

Lemma apply_build (t : net) p fp : par_flat t p fp -> forall l x, build t = Ok l ->
  length (leaves t) = length fp /\ l_apply l p x = apply_all (leaves t) fp x.
Proof using Type.
  revert t p fp.
  apply (par_ind' K Sh X P (fun t p fp => forall l x, build t = Ok l ->
            length (leaves t) = length fp /\ l_apply l p x = apply_all (leaves t) fp x)
          (fun ts ps fs => forall ls x, Forall2 (fun t l => build t = Ok l) ts ls ->
            length (flat_map leaves ts) = length (concat fs)
            /\ apply_all ls ps x = apply_all (flat_map leaves ts) (concat fs) x)).
  - intros l0 p l x E. injection E as <-. split; [reflexivity|]. cbn [leaves apply_all]. destruct (l_apply l0 p x); reflexivity.
  - intros ts ps fs _ IH l x E. apply build_ser in E. destruct E as (ls & r & HF & _ & -> & _).
    destruct (IH ls x HF) as [A B]. split; auto.
  - intros ls x HF. inversion HF; subst. auto.
  - intros t ts p ps f fs _ IH1 _ IH2 ls x HF. inversion HF as [|? l ? ls' Hl HF']; subst.
    cbn [flat_map concat apply_all]. destruct (IH1 l x Hl) as [A B].
    split.
    + rewrite !app_length. destruct (IH2 ls' x HF') as [C _]. lia.
    + rewrite apply_all_app by auto. rewrite B. destruct (apply_all (leaves t) f x) as [y|]; cbn [bind]; auto.
      apply IH2; auto.
Qed.

Theorem serial_apply (t : net) p fp l f x : par_flat t p fp -> build t = Ok l -> serial (leaves t) = Ok f ->
  l_apply l p x = l_apply f (PNode fp) x.
Proof using Type.
  intros Hp El Ef. destruct (serial_inv _ _ Ef) as (_ & _ & _ & Af). rewrite Af. cbn [apply_node].
  now apply (apply_build t p fp Hp).
Qed.
End Serial.

(** ** [repeat] *)
Section Repeat.
Context {K Sh X P : Type} (meta_of : K -> meta) (shape_of : K -> Sh) (set_shape : Sh -> K -> K).
Context (same_static : K -> K -> bool).
Notation layer := (layer (K := K) (Sh := Sh) (X := X) (P := params P)).
Notation run := (run meta_of shape_of set_shape).
Notation run_all := (run_all meta_of shape_of set_shape).
Notation serial := (serial meta_of shape_of set_shape).
Notation repeat := (Model_Req.repeat meta_of shape_of set_shape same_static).
Notation scan := (scan meta_of shape_of set_shape same_static).
Context (Lens : shape_lens shape_of set_shape).

Lemma scan_sound (l : layer) u n : forall k k', scan l u n k = Ok k' -> run_all (List.repeat l n) u k = Ok k'.
Proof using Type.
  induction n as [|n IH]; cbn; intros k k' H; auto.
  destruct (run l u k) as [k1|]; cbn [bind] in *; [|discriminate].
  destruct (same_static k k1); [auto|discriminate].
Qed.

Lemma scan_exact (l : layer) u n : forall k0 k,
  (forall a b c, run l u a = Ok b -> run l u b = Ok c -> same_static b c = true) -> run l u k0 = Ok k ->
  scan l u n k = run_all (List.repeat l n) u k.
Proof using Type.
  induction n as [|n IH]; cbn; intros k0 k Hs H; auto.
  destruct (run l u k) as [k1|] eqn:E; cbn [bind]; auto.
  rewrite (Hs _ _ _ H E). eapply IH; eauto.
Qed.

Lemma repeat_shape (l : layer) n s : iter_shape l n s = shape_all (List.repeat l n) s.
Proof using Type. revert s; induction n; cbn; intros; auto. destruct (l_shape l s); cbn; auto. Qed.

Lemma repeat_apply (l : layer) n : forall ps x, iter_apply l n ps x = apply_all (List.repeat l n) ps x.
Proof using Type. induction n; destruct ps; cbn; intros; auto. destruct (l_apply l p x); cbn; auto. Qed.

Theorem repeat_body_serial (l : layer) n f u k : serial (List.repeat l n) = Ok f ->
  (forall a b c, run l u a = Ok b -> run l u b = Ok c -> same_static b c = true) ->
  l_body (repeat l n) u k = l_body f u k
  /\ (forall s, l_shape (repeat l n) s = l_shape f s)
  /\ (forall p x, l_apply (repeat l n) p x = l_apply f p x).
Proof using Type.
  intros Ef Hs. destruct (serial_inv _ _ _ _ _ Ef) as (_ & B & S & A).
  split; [|split].
  - rewrite B. destruct n as [|n]; cbn; auto. destruct (run l u k) as [k1|] eqn:E; cbn [bind]; auto.
    exact (scan_exact l u n k k1 Hs E).
  - intros. rewrite S. apply repeat_shape.
  - intros. rewrite A. destruct p; cbn; auto. apply repeat_apply.
Qed.

(** Without the condition on static fields, whatever [repeat] returns is right. *)
Theorem repeat_sound (l : layer) n f u k k' : serial (List.repeat l n) = Ok f ->
  l_body (repeat l n) u k = Ok k' -> l_body f u k = Ok k'.
Proof using Type.
  intros Ef H. destruct (serial_inv _ _ _ _ _ Ef) as (_ & B & _). rewrite B.
  destruct n as [|n]; cbn in *; auto. destruct (run l u k) as [k1|]; cbn [bind] in *; [|discriminate].
  now apply scan_sound.
Qed.

Theorem repeat_zero (l : layer) u k k' : run (repeat l 0) u k = Ok k' -> k' = k.
Proof using Lens.
  unfold Model_Req.run. cbn. destruct (check _ _ _); cbn; [|discriminate]. intros E; injection E as <-.
  now rewrite (proj1 (proj2 Lens)).
Qed.

Theorem repeat_zero_ok (l : layer) u k : check (l_req l) u (meta_of k) = Ok tt -> run (repeat l 0) u k = Ok k.
Proof using Lens.
  intros H. unfold Model_Req.run. cbn [l_req l_body l_shape Model_Req.repeat]. rewrite H. cbn.
  now rewrite (proj1 (proj2 Lens)).
Qed.
End Repeat.

Lemma dshift_idem d : dshift d d = d <-> d <> mkD MAYBE NO.
Proof. destruct d as [[] []]; vm_compute; split; congruence. Qed.

Lemma merge_idem r : plain r -> r_ds r <> Some (DD (mkD MAYBE NO)) -> merge Shift r r = Ok r.
Proof.
  intros Hp Hn. rewrite merge_plain by auto. destruct r as [dr b c db ds]. destruct Hp as [Hdb Hds]. simpl in *. subst.
  assert (merge_drop dr dr = Ok dr) as -> by (destruct dr as [[]|]; reflexivity).
  simpl. destruct b, c; simpl; destruct ds as [[| |d]|]; simpl; try tauto;
    try (rewrite (proj2 (dshift_idem d)) by congruence); reflexivity.
Qed.

Theorem repeat_req_iff r : plain r ->
  (forall n, 1 <= n -> input_req Shift (List.repeat r n) = Ok r) <-> r_ds r <> Some (DD (mkD MAYBE NO)).
Proof.
  intros Hp. split.
  - intros H E. specialize (H 2 ltac:(lia)). unfold input_req in H. cbn [List.repeat merge_all] in H.
    rewrite merge_no_l in H by auto. cbn [bind] in H. rewrite merge_plain in H by auto.
    destruct (merge_drop (r_dropout r) (r_dropout r)); cbn [bind] in H; [|discriminate].
    injection H as H. rewrite <- H in E. cbn in E. destruct (r_ds r) as [[| |[[] []]]|]; vm_compute in E; try discriminate;
    destruct Hp as [_ Hp]; congruence.
  - intros Hn n Hle. destruct n as [|n]; [lia|]. unfold input_req. cbn [List.repeat merge_all].
    rewrite merge_no_l by auto. cbn [bind]. clear Hle. induction n as [|n IH]; cbn [List.repeat merge_all]; auto.
    rewrite merge_idem by auto. exact IH.
Qed.

(** ** Requests *)
Theorem fuse_spec r u : 
  (fuse true r u = Raise ValueError <->
     (u_db u = Some true /\ exists v, r_db r = Some v /\ insufficient v = true)
     \/ (u_ds u = Some true /\ exists v, r_ds r = Some v /\ insufficient v = true))
  /\ (forall e, fuse true r u = Raise e -> e = ValueError)
  /\ forall f, fuse true r u = Ok f ->
     r_db f = Some (match u_db u, r_db r with Some b, _ => DB b | None, Some v => v | None, None => DB true end)
     /\ r_ds f = Some (match u_ds u, r_ds r with Some b, _ => DB b | None, Some v => v | None, None => DB false end)
     /\ r_batch f = Some (match r_batch r with Some b => b | None => 0%Z end)
     /\ r_channel f = Some (match r_channel r with Some c => c | None => Some (-1)%Z end).
Proof.
  destruct r as [dr b c db ds], u as [ub us]. unfold fuse, fuse_val, default_db, default_ds. simpl.
  assert (A : forall v w : dval, (exists x, Some v = Some x /\ insufficient x = true) <-> insufficient v = true).
  { intros v _. split; [intros (x & E & H); injection E as ->; auto|intros H; eauto]. }
  split; [|split].
  - destruct ub as [[]|], db as [v|]; simpl; try destruct (insufficient v) eqn:Ev; simpl;
      destruct us as [[]|], ds as [w|]; simpl; try destruct (insufficient w) eqn:Ew; simpl;
      (split; [intros H; try discriminate H; eauto 6
              |intros [(? & x & Hx & Hi)|(? & x & Hx & Hi)]; try discriminate; auto;
                injection Hx as <-; congruence]).
  - intros e. destruct ub as [[]|], db as [v|]; simpl; try destruct (insufficient v) eqn:Ev; simpl;
      destruct us as [[]|], ds as [w|]; simpl; try destruct (insufficient w) eqn:Ew; simpl; congruence.
  - intros f. destruct ub as [[]|], db as [v|]; simpl; try destruct (insufficient v) eqn:Ev; simpl;
      destruct us as [[]|], ds as [w|]; simpl; try destruct (insufficient w) eqn:Ew; simpl;
      try discriminate; intros E; injection E as <-; simpl; auto.
Qed.

(** A layer whose declared requirement rules out diagonals never runs on them. *)
Theorem check_guards r u m v :
  (r_db r = Some v /\ is_True (m_db m) = true \/ r_ds r = Some v /\ is_True (m_ds m) = true) ->
  insufficient v = true -> check r u m = Raise ValueError.
Proof.
  intros H Hv. destruct r as [dr b c db ds], u as [ub us]. unfold check, fuse, fuse_val. simpl in *.
  destruct H as [[-> Hm]|[-> Hm]]; rewrite Hm.
  - destruct ub as [[]|]; simpl; rewrite ?Hv; auto;
      destruct us as [[]|], ds as [w|]; simpl; try destruct (insufficient w); simpl; rewrite ?Hv; reflexivity.
  - destruct ub as [[]|], db as [w|]; simpl; try destruct (insufficient w); simpl; auto;
      destruct us as [[]|]; simpl; rewrite ?Hv, ?orb_true_r; auto.
Qed.

Section Own.
Context {K Sh X P : Type} (meta_of : K -> meta) (shape_of : K -> Sh) (set_shape : Sh -> K -> K).
Notation layer := (layer (K := K) (Sh := Sh) (X := X) (P := params P)).
Notation reqs ls := (map (@l_req K Sh X (params P)) ls).

(** The layout the network and the user settle on passes the layout check of each layer. *)
Theorem own_layout_accepted (pre post : list layer) l r u k k' db ds :
  Forall (well_behaved meta_of set_shape) (pre ++ l :: post) ->
  input_req Shift (reqs (pre ++ l :: post)) = Ok r ->
  request_compatible u (pre ++ l :: post) ->
  input_layout r u = Ok (db, ds) -> m_db (meta_of k) = db -> m_ds (meta_of k) = ds ->
  run_all meta_of shape_of set_shape pre u k = Ok k' ->
  check (mkReq (r_dropout (l_req l)) None None (r_db (l_req l)) (r_ds (l_req l))) u (meta_of k') = Ok tt.
Proof.
  intros Hw Er Hu El Hkb Hk Hrun.
  assert (Hl : plain (l_req l)). { apply Forall_app in Hw. destruct Hw as [_ Hw]. inversion Hw; subst. apply H1. }
  apply check_spec; [exact Hl|].
  split; [|split; intros v Ev; discriminate].
  change (diag_ok (l_req l) u (meta_of k')).
  apply (diag_group meta_of shape_of set_shape pre [l] post u k k' r (l_req l)); auto.
  - unfold input_req. cbn [map merge_all]. rewrite merge_no_l by auto. reflexivity.
  - unfold input_layout in El. destruct (fuse true r u) as [f|] eqn:Ef; [|discriminate].
    cbn [rmap] in El.
    pose proof (fuse_spec r u) as (F1 & _ & F2). destruct (F2 f Ef) as (Fb & Fs & _). rewrite Fb, Fs in El. injection El as E1 E2.
    rewrite <- E1 in Hkb. rewrite <- E2 in Hk.
    split; [|split; [|split]].
    + intros E. rewrite Hkb, E. reflexivity.
    + intros E. rewrite Hk, E. destruct (r_channel f) as [[]|]; reflexivity.
    + intros E (d & Ed & Hd).
      assert (fuse true r u = Raise ValueError) as Q; [|congruence].
      apply F1. right. split; auto. exists (DD d). split; auto. simpl. now rewrite Hd.
    + intros T E (d & Ed & Hd). rewrite Hk, E, Ed in T.
      destruct (r_channel f) as [[]|]; cbn in T; try discriminate; unfold dbool in T; rewrite Hd in T; discriminate.
Qed.
End Own.
