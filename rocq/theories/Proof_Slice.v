(** Proofs about [slice_shape]. *)
From Coq Require Import List Arith ZArith Lia Bool.
From Verif Require Import Base Model_Slice Spec_Slice.
Import ListNotations.
Local Open Scope Z_scope.

(** ** Canonical index *)

Lemma before_after idx :
  idx = before_ell idx ++ (if existsb is_ell idx then IEll :: after_ell idx else []).
Proof.
  induction idx as [|i idx IH]; simpl; auto. destruct i; simpl; f_equal; auto.
Qed.

Lemma expand_noell ndim len idx : existsb is_ell idx = false -> expand_ell ndim len idx = idx.
Proof.
  induction idx as [|i idx IH]; simpl; auto. rewrite orb_false_iff. intros [H1 H2]. rewrite H1; simpl. now rewrite IH.
Qed.

Lemma before_noell idx : existsb is_ell (before_ell idx) = false.
Proof. induction idx as [|i idx IH]; simpl; auto. destruct (is_ell i) eqn:E; simpl; auto. now rewrite E. Qed.

Lemma expand_app ndim len l l' : expand_ell ndim len (l ++ l') = expand_ell ndim len l ++ expand_ell ndim len l'.
Proof. induction l; simpl; auto. now rewrite IHl, app_assoc. Qed.

Lemma after_noell_nil idx : existsb is_ell idx = false -> after_ell idx = [].
Proof. induction idx as [|i idx IH]; simpl; auto. rewrite orb_false_iff. intros [H1 H2]. rewrite H1; auto. Qed.

Lemma canon_eq idx ndim : well_indexed idx ndim ->
  canonicalize_idx idx ndim = before_ell idx
    ++ repeat full (ndim - length (before_ell idx) - length (after_ell idx))%nat ++ after_ell idx.
Proof.
  intros [H1 H2]. unfold canonicalize_idx.
  destruct (existsb is_ell idx) eqn:E.
  - pose proof (before_after idx) as B. rewrite E in B.
    assert (expand_ell ndim (length idx) idx = before_ell idx
       ++ repeat full (ndim - length (before_ell idx) - length (after_ell idx))%nat ++ after_ell idx) as ->.
    { pose proof (f_equal (@length index) B) as L. rewrite app_length in L; simpl in L.
      rewrite B at 2. rewrite expand_app. rewrite expand_noell by apply before_noell. f_equal.
      simpl. rewrite expand_noell by auto. f_equal. f_equal. lia. }
    match goal with |- ?l ++ repeat full (ndim - ?n)%nat = _ =>
      replace (ndim - n)%nat with 0%nat by (rewrite !app_length, repeat_length; lia) end.
    simpl. now rewrite app_nil_r.
  - pose proof (before_after idx) as B. rewrite E, app_nil_r in B.
    rewrite expand_noell by auto. rewrite <- B in *.
    rewrite (after_noell_nil idx E) in *. simpl in *. now rewrite app_nil_r, Nat.sub_0_r.
Qed.

Lemma canon_length idx ndim : well_indexed idx ndim -> length (canonicalize_idx idx ndim) = ndim.
Proof. intros H; rewrite canon_eq by auto. rewrite !app_length, repeat_length. destruct H; lia. Qed.

Lemma canon_noell idx ndim : well_indexed idx ndim -> existsb is_ell (canonicalize_idx idx ndim) = false.
Proof.
  intros H; rewrite canon_eq by auto. rewrite !existsb_app, before_noell. destruct H as [-> _].
  rewrite orb_false_r. simpl. induction (_ - _)%nat; simpl; auto.
Qed.

Lemma canon_addressed idx ndim a : well_indexed idx ndim -> (a < ndim)%nat ->
  nth_error (canonicalize_idx idx ndim) a = Some (match addressed idx ndim a with Some i => i | None => full end).
Proof.
  intros H Ha. rewrite canon_eq by auto. unfold addressed.
  destruct H as [H1 H2].
  destruct (Nat.ltb_spec a (length (before_ell idx))) as [L|L].
  - rewrite nth_error_app1 by auto.
    assert (nth_error idx a = nth_error (before_ell idx) a) as ->.
    { rewrite (before_after idx) at 1. now rewrite nth_error_app1. }
    destruct (nth_error (before_ell idx) a) eqn:E; auto. apply nth_error_None in E; lia.
  - rewrite nth_error_app2 by auto.
    destruct (Nat.leb_spec (ndim - length (after_ell idx)) a) as [M|M].
    + rewrite nth_error_app2 by (rewrite repeat_length; lia). rewrite repeat_length.
      replace (a - length (before_ell idx) - (ndim - length (before_ell idx) - length (after_ell idx)))%nat
        with (a - (ndim - length (after_ell idx)))%nat by lia.
      destruct (nth_error (after_ell idx) _) eqn:E; auto. apply nth_error_None in E; lia.
    + rewrite nth_error_app1 by (rewrite repeat_length; lia).
      apply nth_error_repeat. lia.
Qed.

(** ** numpy with an ellipsis is numpy with the canonical index *)

Definition nonneg (sh : list Z) := Forall (fun n => 0 <= n) sh.

Lemma full_len n : 0 <= n -> slice_len n None None None = Ok n.
Proof.
  intros H; unfold slice_len; simpl. destruct (Z.ltb_spec 0 n).
  - rewrite Z.div_1_r. f_equal; lia.
  - f_equal; lia.
Qed.

Lemma np_repeat_full k sh idx : nonneg sh -> (k <= length sh)%nat ->
  np_index sh (repeat full k ++ idx) = rmap (app (firstn k sh)) (np_index (skipn k sh) idx).
Proof.
  revert sh; induction k as [|k IH]; intros sh Hn Hk; cbn [repeat app].
  - cbn [firstn skipn]. destruct (np_index sh idx); reflexivity.
  - destruct sh as [|n sh]; simpl in Hk; [lia|]. inversion Hn; subst.
    unfold full at 1. cbn [np_index]. rewrite full_len by auto; cbn [bind].
    rewrite IH by (auto; lia). simpl. destruct (np_index (skipn k sh) idx); reflexivity.
Qed.

Lemma np_after sh l : existsb is_ell l = false -> nonneg sh -> (length l <= length sh)%nat ->
  np_index sh (IEll :: l) = np_index sh (repeat full (length sh - length l) ++ l).
Proof.
  intros H Hn Hl. cbn [np_index]. rewrite H. rewrite (proj2 (Nat.ltb_ge _ _) Hl).
  rewrite np_repeat_full by (auto; lia). reflexivity.
Qed.

Lemma np_pad sh : nonneg sh -> np_index sh (repeat full (length sh)) = Ok sh.
Proof.
  intros H. rewrite <- (app_nil_r (repeat full (length sh))), np_repeat_full by auto.
  rewrite skipn_all, firstn_all; simpl. now rewrite app_nil_r.
Qed.

Lemma np_prefix l : forall sh l1 l2, existsb is_ell l = false -> nonneg sh -> (length l <= length sh)%nat ->
  (forall sh', nonneg sh' -> length sh' = (length sh - length l)%nat -> np_index sh' l1 = np_index sh' l2) ->
  np_index sh (l ++ l1) = np_index sh (l ++ l2).
Proof.
  induction l as [|i l IH]; intros sh l1 l2 H Hn Hl Hx; simpl.
  - apply Hx; auto. simpl; lia.
  - simpl in H. apply orb_false_iff in H; destruct H as [H1 H2].
    destruct sh as [|n sh]; simpl in Hl; [lia|]. inversion Hn; subst.
    assert (np_index sh (l ++ l1) = np_index sh (l ++ l2)) as E by (apply IH; auto; lia).
    destruct i; simpl in H1; try discriminate; rewrite E; reflexivity.
Qed.

Lemma np_canon sh idx : nonneg sh -> well_indexed idx (length sh) ->
  np_index sh idx = np_index sh (canonicalize_idx idx (length sh)).
Proof.
  intros Hn H. rewrite canon_eq by auto. rewrite (before_after idx) at 1. destruct H as [H1 H2].
  apply np_prefix; auto; [apply before_noell|lia|].
  intros sh' Hn' Hl. destruct (existsb is_ell idx) eqn:E.
  - rewrite np_after by (auto; lia). rewrite Hl. reflexivity.
  - rewrite (after_noell_nil idx E). simpl. rewrite app_nil_r, Nat.sub_0_r, <- Hl.
    now rewrite np_pad.
Qed.

(** ** The scan *)

Lemma scan_shift1 cidx : forall sh a n, scan_axes (S a) (S n) cidx sh = scan_axes a n cidx sh.
Proof.
  induction cidx as [|i cidx IH]; intros sh a n; [reflexivity|].
  destruct sh as [|[s|] sh]; simpl; auto.
  destruct (s <? 0); [destruct (is_full i); auto; now rewrite IH|].
  destruct (is_int i); now rewrite IH.
Qed.

Definition up (r : list Z * list (nat * Z)) := (fst r, map (fun p => (S (fst p), snd p)) (snd r)).

Lemma scan_shift cidx : forall sh a n, (n <= a)%nat ->
  scan_axes (S a) n cidx sh = rmap up (scan_axes a n cidx sh).
Proof.
  induction cidx as [|i cidx IH]; intros sh a n Hn; [reflexivity|].
  destruct sh as [|[s|] sh]; simpl; auto.
  destruct (s <? 0).
  - destruct (is_full i); auto. rewrite IH by lia.
    destruct (scan_axes (S a) n cidx sh); simpl; auto. unfold up; simpl. do 3 f_equal.
    destruct n; f_equal; f_equal; lia.
  - destruct (is_int i).
    + rewrite !scan_shift1, IH by auto. destruct (scan_axes a n cidx sh); reflexivity.
    + rewrite IH by lia. destruct (scan_axes (S a) n cidx sh); reflexivity.
Qed.

Lemma restore_up x l u : restore (x :: l) (map (fun p : nat * Z => (S (fst p), snd p)) u) = rmap (cons x) (restore l u).
Proof.
  revert l; induction u as [|[a v] u IH]; intros l; simpl; auto.
  destruct (set_nth l a v) as [l'|]; simpl; auto.
Qed.

Definition tail_of (l : list Z) (idx : list index) (u : list (nat * Z)) :=
  bind (np_index l idx) (fun out => restore out u).

Lemma fill_nonneg f sh : (forall s, 0 <= f s) -> nonneg (map (fill f) sh).
Proof.
  intros Hf; unfold nonneg; apply Forall_forall; intros x Hx. apply in_map_iff in Hx. destruct Hx as (s & <- & _).
  unfold fill. destruct (Z.ltb_spec s 0); auto.
Qed.

Lemma scan_core f cidx : (forall s, 0 <= f s) -> forall sh,
  length cidx = length sh -> existsb is_ell cidx = false ->
  match scan_axes 0 0 cidx (map Some sh) with
  | Ok (np, u) =>
      length np = length sh /\ nonneg np
      /\ rmap (map (fill f)) (tail_of np cidx u) = np_index (map (fill f) sh) cidx
  | Raise e => e = ValueError /\ exists a i s, nth_error cidx a = Some i /\ nth_error sh a = Some s
                 /\ s < 0 /\ is_full i = false
  end.
Proof.
  intros Hf; induction cidx as [|i cidx IH]; intros sh Hl He; destruct sh as [|s sh]; simpl in Hl; try discriminate.
  - simpl. split; [reflexivity|]. split; [constructor|reflexivity].
  - injection Hl as Hl. simpl in He. apply orb_false_iff in He; destruct He as [He1 He2].
    specialize (IH sh Hl He2). simpl scan_axes.
    destruct (Z.ltb_spec s 0) as [Hs|Hs].
    + destruct (is_full i) eqn:Ei.
      * rewrite scan_shift by auto.
        destruct (scan_axes 0 0 cidx (map Some sh)) as [[np u]|e]; simpl.
        -- destruct IH as (H1 & H2 & H3). split; [simpl; lia|]. split; [constructor; auto; lia|].
           destruct i as [|[?|] [?|] [?|]|]; try discriminate.
           unfold tail_of in *. cbn [np_index]. rewrite full_len by lia. rewrite full_len.
           2:{ unfold fill. destruct (Z.ltb_spec s 0); auto. }
           cbn [bind map]. rewrite <- H3.
           destruct (np_index np cidx) as [out|]; cbn [rmap bind]; auto.
           cbn [restore set_nth bind]. rewrite restore_up.
           destruct (restore out u); reflexivity.
        -- destruct IH as (-> & a & i0 & s0 & A1 & A2 & A3 & A4). split; auto. exists (S a), i0, s0; auto.
      * split; auto. exists 0%nat, i, s; simpl; auto.
    + assert (fill f s = s) as Efs by (unfold fill; destruct (Z.ltb_spec s 0); auto; lia).
      destruct (is_int i) eqn:Ei.
      * rewrite scan_shift1.
        destruct (scan_axes 0 0 cidx (map Some sh)) as [[np u]|e]; simpl.
        -- destruct IH as (H1 & H2 & H3). split; [simpl; lia|]. split; [constructor; auto|].
           destruct i; try discriminate.
           unfold tail_of in *. cbn [np_index]. rewrite Efs.
           destruct ((- s <=? i) && (i <? s)); auto.
        -- destruct IH as (-> & a & i0 & s0 & A1 & A2 & A3 & A4). split; auto. exists (S a), i0, s0; auto.
      * rewrite scan_shift by auto.
        destruct (scan_axes 0 0 cidx (map Some sh)) as [[np u]|e]; simpl.
        -- destruct IH as (H1 & H2 & H3). split; [simpl; lia|]. split; [constructor; auto|].
           destruct i; try discriminate.
           unfold tail_of in *. cbn [np_index]. rewrite Efs.
           destruct (slice_len s start stop step) as [m|] eqn:Em; cbn [bind rmap]; auto.
           rewrite <- H3. destruct (np_index np cidx) as [out|]; cbn [rmap bind]; auto.
           rewrite restore_up. destruct (restore out u); cbn [rmap map]; auto. do 2 f_equal.
           unfold fill. destruct (Z.ltb_spec m 0) as [Hm|Hm]; auto. exfalso.
           clear - Em Hm Hs. unfold slice_len in Em.
           destruct (match step with None => 1 | Some s0 => s0 end) as [|p|p] eqn:Es; simpl in Em; try discriminate.
           ++ injection Em as Em. subst m.
              match type of Hm with context [if ?b then _ else _] => destruct b eqn:Eb end; [|lia].
              apply Z.ltb_lt in Eb.
              match type of Hm with ?q / ?r + 1 < 0 => pose proof (Z.div_pos q r ltac:(lia) ltac:(lia)); lia end.
           ++ injection Em as Em. subst m.
              match type of Hm with context [if ?b then _ else _] => destruct b eqn:Eb end; [|lia].
              apply Z.ltb_lt in Eb.
              match type of Hm with ?q / ?r + 1 < 0 => pose proof (Z.div_pos q r ltac:(lia) ltac:(lia)); lia end.
        -- destruct IH as (-> & a & i0 & s0 & A1 & A2 & A3 & A4). split; auto. exists (S a), i0, s0; auto.
Qed.

Theorem slice_shape_numpy f sh idx : (forall s, 0 <= f s) -> well_indexed idx (length sh) ->
  (forall a s, nth_error sh a = Some s -> s < 0 -> is_unsliced (addressed idx (length sh) a) = true) ->
  rmap (map (fill f)) (slice_shape (map Some sh) idx) = np_index (map (fill f) sh) idx.
Proof.
  intros Hf Hw Hu. unfold slice_shape. rewrite map_length.
  pose proof (scan_core f (canonicalize_idx idx (length sh)) Hf sh
    (canon_length _ _ Hw) (canon_noell _ _ Hw)) as H.
  destruct (scan_axes 0 0 _ (map Some sh)) as [[np u]|e]; simpl.
  - destruct H as (H1 & H2 & H3).
    rewrite (np_canon np idx H2) by (rewrite H1; auto). rewrite H1.
    rewrite (np_canon (map (fill f) sh) idx) by (rewrite ?map_length; auto using fill_nonneg).
    rewrite map_length. exact H3.
  - destruct H as (-> & a & i & s & A1 & A2 & A3 & A4). exfalso.
    assert (a < length sh)%nat as Ha by (apply nth_error_Some; congruence).
    rewrite (canon_addressed _ _ _ Hw Ha) in A1. injection A1 as A1.
    specialize (Hu a s A2 A3). destruct (addressed idx (length sh) a); simpl in Hu; subst; [congruence|discriminate].
Qed.

(** Indexing an unknown axis is refused. *)
Lemma scan_refuses cidx : forall sh a0 n a i s, nth_error cidx a = Some i -> nth_error sh a = Some s ->
  s < 0 -> is_full i = false -> scan_axes a0 n cidx (map Some sh) = Raise ValueError.
Proof.
  induction cidx as [|j cidx IH]; intros sh a0 n a i s A1 A2 A3 A4; [destruct a; discriminate|].
  destruct sh as [|s' sh]; [destruct a; discriminate|]. simpl.
  destruct a as [|a]; simpl in A1, A2.
  - injection A1 as ->. injection A2 as ->. apply Z.ltb_lt in A3. now rewrite A3, A4.
  - destruct (s' <? 0).
    + destruct (is_full j); auto. now rewrite (IH _ _ _ _ _ _ A1 A2 A3 A4).
    + now rewrite (IH _ _ _ _ _ _ A1 A2 A3 A4).
Qed.

Theorem slice_shape_unknown sh idx a s i : well_indexed idx (length sh) ->
  nth_error sh a = Some s -> s < 0 -> addressed idx (length sh) a = Some i -> is_full i = false ->
  slice_shape (map Some sh) idx = Raise ValueError.
Proof.
  intros Hw A2 A3 A1 A4. unfold slice_shape. rewrite map_length.
  assert (a < length sh)%nat as Ha by (apply nth_error_Some; congruence).
  rewrite (scan_refuses _ sh 0 0 a i s); auto.
  rewrite (canon_addressed _ _ _ Hw Ha), A1; auto.
Qed.

(** [None] sizes: the comparison raises. *)
Lemma scan_none cidx : forall sh a0 n, In None sh -> length cidx = length sh ->
  exists e, scan_axes a0 n cidx sh = Raise e /\ (e = TypeError \/ e = ValueError).
Proof.
  induction cidx as [|i cidx IH]; intros sh a0 n H Hl; destruct sh as [|s sh]; simpl in *; try discriminate; try tauto.
  destruct s as [s|]; [|eauto]. destruct H as [H|H]; [discriminate|]. injection Hl as Hl.
  destruct (s <? 0).
  - destruct (is_full i); [|eauto]. destruct (IH sh (S a0) n H Hl) as (e & -> & He). simpl; eauto.
  - destruct (IH sh (S a0) (if is_int i then S n else n) H Hl) as (e & -> & He). simpl; eauto.
Qed.

Lemma scan_none_type cidx : forall sh a0 n, In None sh -> length cidx = length sh ->
  (forall s z, In s sh -> s = Some z -> 0 <= z) -> scan_axes a0 n cidx sh = Raise TypeError.
Proof.
  induction cidx as [|i cidx IH]; intros sh a0 n H Hl Hp; destruct sh as [|s sh]; simpl in *; try discriminate; try tauto.
  destruct s as [s|]; auto. destruct H as [H|H]; [discriminate|]. injection Hl as Hl.
  pose proof (Hp (Some s) s (or_introl eq_refl) eq_refl). destruct (Z.ltb_spec s 0); [lia|].
  rewrite IH; auto. intros s0 z Hi E; apply (Hp s0); auto.
Qed.

Theorem slice_shape_none sh idx : In None sh -> well_indexed idx (length sh) ->
  is_ok (slice_shape sh idx) = false.
Proof.
  intros H Hw. unfold slice_shape.
  destruct (scan_none (canonicalize_idx idx (length sh)) sh 0 0 H (canon_length _ _ Hw)) as (e & -> & _). reflexivity.
Qed.

Theorem slice_shape_none_type sh idx : In None sh -> well_indexed idx (length sh) ->
  (forall s z, In s sh -> s = Some z -> 0 <= z) ->
  slice_shape sh idx = Raise TypeError.
Proof.
  intros H Hw Hp. unfold slice_shape. rewrite scan_none_type; auto. apply canon_length; auto.
Qed.

(** ** The modelled slice length counts the selected positions *)

Lemma clamp_bound n i lo hi : 0 <= n -> lo <= hi -> lo = 0 /\ hi = n \/ lo = -1 /\ hi = n - 1 ->
  clamp n i lo hi = Z.max lo (Z.min hi (bound n i)).
Proof.
  intros Hn Hlh H. unfold clamp, bound.
  destruct (Z.ltb_spec i 0), (Z.ltb_spec (i + n) lo), (Z.ltb_spec hi i); lia.
Qed.

(** The arithmetic progression from [a] with step [c], [m] terms. *)
Definition progression (a c m : Z) : list Z := map (fun k => a + Z.of_nat k * c) (seq 0 (Z.to_nat m)).

Lemma progression_In a c m p : In p (progression a c m) <-> exists k, 0 <= k < m /\ p = a + k * c.
Proof.
  unfold progression; rewrite in_map_iff. split.
  - intros (k & <- & Hk). apply in_seq in Hk. exists (Z.of_nat k); split; [lia|auto].
  - intros (k & Hk & ->). exists (Z.to_nat k). rewrite Z2Nat.id by lia. split; auto. apply in_seq; lia.
Qed.

Lemma progression_NoDup a c m : c <> 0 -> NoDup (progression a c m).
Proof.
  intros Hc; unfold progression. generalize 0%nat. induction (Z.to_nat m) as [|q IH]; intros s; simpl; constructor; auto.
  rewrite in_map_iff. intros (k & E & Hk). apply in_seq in Hk. nia.
Qed.

Theorem slice_len_counts n start stop step : 0 <= n ->
  match step with Some 0 => False | _ => True end ->
  exists m l, slice_len n start stop step = Ok m /\ NoDup l /\ Z.of_nat (length l) = m
    /\ forall p, In p l <-> selected n start stop step p.
Proof.
  intros Hn Hst. unfold slice_len, selected.
  set (c := match step with None => 1 | Some s => s end).
  assert (c <> 0) as Hc by (subst c; destruct step as [[| |]|]; simpl in *; try lia; tauto).
  rewrite (proj2 (Z.eqb_neq c 0) Hc).
  destruct (Z.ltb_spec 0 c) as [Hpos|Hneg].
  - set (a := match start with None => 0 | Some s => clamp n s 0 n end).
    set (b := match stop with None => n | Some s => clamp n s 0 n end).
    set (m := if a <? b then (b - a - 1) / c + 1 else 0).
    assert (a = Z.min n (match start with None => 0 | Some a => Z.max 0 (bound n a) end)) as Ea.
    { subst a; destruct start; [rewrite clamp_bound; lia|lia]. }
    assert (0 <= match start with None => 0 | Some a => Z.max 0 (bound n a) end) as Ha0 by (destruct start; lia).
    revert Ea Ha0.
    generalize (match start with None => 0 | Some a => Z.max 0 (bound n a) end); intros a0 Ea Ha0.
    assert (0 <= b <= n) as Hb by (subst b; destruct stop; [rewrite clamp_bound; lia|lia]).
    assert (forall p, 0 <= p < n -> (p < b <-> match stop with None => True | Some b => p < bound n b end)) as Hbp.
    { intros p Hp; subst b; destruct stop; [rewrite clamp_bound; lia|lia]. }
    assert (0 <= m) as Hm.
    { subst m; destruct (Z.ltb_spec a b); [|lia]. pose proof (Z.div_pos (b - a - 1) c); lia. }
    exists m, (progression a c m). split; auto. split; [now apply progression_NoDup|].
    split; [unfold progression; rewrite map_length, seq_length; lia|].
    intros p. rewrite progression_In. split.
    + intros (k & Hk & ->). assert (a < b) as Hab by (subst m; destruct (Z.ltb_spec a b); lia).
      assert (k * c <= b - a - 1) as Hkc.
      { assert (k <= (b - a - 1) / c) by (subst m; destruct (Z.ltb_spec a b); lia).
        pose proof (Z.mul_div_le (b - a - 1) c ltac:(lia)). nia. }
      assert (0 <= a) by lia. assert (0 <= k * c) by nia.
      split; [lia|]. left. split; auto. split; [apply Hbp; lia|].
      exists k; split; [lia|]. rewrite Ea. lia.
    + intros (Hp & [(_ & Hs & k & Hk & E)|(Hc' & _)]); [|lia].
      assert (a = a0) as Ea' by nia.
      rewrite <- Ea' in E. apply Hbp in Hs; auto.
      exists k; split; auto. split; auto. assert (a < b) as Hab by nia.
      subst m; destruct (Z.ltb_spec a b); [|lia].
      assert (k <= (b - a - 1) / c) by (apply Z.div_le_lower_bound; nia). lia.
  - set (a := match start with None => n - 1 | Some s => clamp n s (-1) (n - 1) end).
    set (b := match stop with None => -1 | Some s => clamp n s (-1) (n - 1) end).
    set (m := if b <? a then (a - b - 1) / - c + 1 else 0).
    assert (a = Z.max (-1) (match start with None => n - 1 | Some a => Z.min (n - 1) (bound n a) end)) as Ea.
    { subst a; destruct start; [rewrite clamp_bound; lia|lia]. }
    assert (match start with None => n - 1 | Some a => Z.min (n - 1) (bound n a) end <= n - 1) as Ha0 by (destruct start; lia).
    revert Ea Ha0.
    generalize (match start with None => n - 1 | Some a => Z.min (n - 1) (bound n a) end); intros a0 Ea Ha0.
    assert (-1 <= b <= n - 1) as Hb by (subst b; destruct stop; [rewrite clamp_bound; lia|lia]).
    assert (forall p, 0 <= p < n -> (b < p <-> match stop with None => True | Some b => bound n b < p end)) as Hbp.
    { intros p Hp; subst b; destruct stop; [rewrite clamp_bound; lia|lia]. }
    assert (0 <= m) as Hm.
    { subst m; destruct (Z.ltb_spec b a); [|lia]. pose proof (Z.div_pos (a - b - 1) (- c)); lia. }
    exists m, (progression a c m). split; auto. split; [now apply progression_NoDup|].
    split; [unfold progression; rewrite map_length, seq_length; lia|].
    intros p. rewrite progression_In. split.
    + intros (k & Hk & ->). assert (b < a) as Hab by (subst m; destruct (Z.ltb_spec b a); lia).
      assert (k * - c <= a - b - 1) as Hkc.
      { assert (k <= (a - b - 1) / - c) by (subst m; destruct (Z.ltb_spec b a); lia).
        pose proof (Z.mul_div_le (a - b - 1) (- c) ltac:(lia)). nia. }
      assert (0 <= a <= n - 1) by lia. assert (0 <= k * - c) by nia.
      split; [lia|]. right. split; [lia|]. split; [apply Hbp; lia|].
      exists k; split; [lia|]. rewrite Ea. lia.
    + intros (Hp & [(Hc' & _)|(_ & Hs & k & Hk & E)]); [lia|].
      assert (a = a0) as Ea' by nia.
      rewrite <- Ea' in E. apply Hbp in Hs; auto.
      exists k; split; auto. split; auto. assert (b < a) as Hab by nia.
      subst m; destruct (Z.ltb_spec b a); [|lia].
      assert (k <= (a - b - 1) / - c) by (apply Z.div_le_lower_bound; nia). lia.
Qed.
