(** Proofs about [get_namedtuple]. *)
From Coq Require Import List Arith Lia Bool String Ascii.
From Verif Require Import Base Model_Get Spec_Get.
Import ListNotations.

Lemma str_mem_In s l : str_mem s l = true <-> In s l.
Proof.
  induction l as [|x l IH]; simpl; [split; [discriminate|tauto]|].
  rewrite orb_true_iff, IH, String.eqb_eq. split; intros [H|H]; auto.
Qed.

Lemma str_nodup_spec l : str_nodup l = true <-> NoDup l.
Proof.
  induction l as [|x l IH]; simpl; [split; [constructor|auto]|].
  rewrite andb_true_iff, negb_true_iff, IH. split.
  - intros [H1 H2]; constructor; auto. intros Hx; apply str_mem_In in Hx; congruence.
  - inversion 1; subst. split; auto. destruct (str_mem x l) eqn:E; auto. apply str_mem_In in E; tauto.
Qed.

Section Get.
Context {V K : Type} (other : V -> exn) (gi : nat) (defaults : option (list (arg V)))
  (fn : list (arg V) -> list (string * arg V) -> result (out K)).
Notation call := (list (arg V) * list (string * arg V))%type.

Lemma canonicalize_req g l : requests g l ->
  canonicalize_get other (AGet g) = Ok (match g with GStr _ => true | _ => false end, Some l).
Proof.
  intros [s Hs|l' Hl Hn]; simpl.
  - destruct s; congruence.
  - destruct l' as [|x l']; [congruence|]. apply str_nodup_spec in Hn. simpl map in *. now rewrite Hn.
Qed.

Lemma canonicalize_bad g : unacceptable g -> canonicalize_get other (AGet g) = Raise ValueError.
Proof.
  intros [->|[->|(l & -> & H)]]; auto. destruct l as [|x l]; auto.
  unfold canonicalize_get. destruct (str_nodup (map lower (x :: l))) eqn:E; auto.
  apply str_nodup_spec in E; tauto.
Qed.

Lemma kw_set_get k k' (b : arg V) kw : kw_get k (kw_set k' b kw)
  = if String.eqb k k' then Some b else kw_get k kw.
Proof.
  induction kw as [|[k1 b1] kw IH]; simpl.
  - reflexivity.
  - destruct (String.eqb_spec k' k1) as [->|N]; simpl.
    + destruct (String.eqb_spec k k1); auto.
    + rewrite IH. destruct (String.eqb_spec k k1) as [->|]; auto.
      destruct (String.eqb_spec k1 k') as [<-|]; auto. congruence.
Qed.

Lemma kw_set_keys k (b b' : arg V) kw : kw_get k kw = Some b' -> map fst (kw_set k b kw) = map fst kw.
Proof.
  induction kw as [|[k1 b1] kw IH]; simpl; [discriminate|].
  destruct (String.eqb_spec k k1); simpl; intros; [auto|f_equal; auto].
Qed.

Lemma kw_set_set k (b b' : arg V) kw : kw_set k b (kw_set k b' kw) = kw_set k b kw.
Proof.
  induction kw as [|[k1 b1] kw IH]; cbn [kw_set].
  - now rewrite String.eqb_refl.
  - destruct (String.eqb k k1) eqn:E; cbn [kw_set]; rewrite E; [reflexivity|]. now rewrite IH.
Qed.

Lemma kw_get_keys k (kw kw' : list (string * arg V)) : map fst kw' = map fst kw ->
  kw_get k kw = None -> kw_get k kw' = None.
Proof.
  revert kw'; induction kw as [|[k1 b] kw IH]; intros [|[k2 b'] kw'] E; try discriminate; simpl; auto.
  cbn [map fst] in E. injection E as -> E. destruct (String.eqb k k1); [discriminate|auto].
Qed.

Lemma set_arg_length (l : list (arg V)) i a : List.length (set_arg l i a) = List.length l.
Proof. revert i; induction l; destruct i; simpl; auto. Qed.

Lemma set_arg_other (l : list (arg V)) i a j : j <> i -> nth_error (set_arg l i a) j = nth_error l j.
Proof. revert i j; induction l; destruct i, j; simpl; auto; congruence. Qed.

Lemma set_arg_same (l : list (arg V)) i a b : nth_error l i = Some b -> nth_error (set_arg l i a) i = Some a.
Proof. revert i; induction l; destruct i; simpl; auto; discriminate. Qed.

(** Whatever the way [get] is passed, the function is called with the canonical
    request in the same place and nothing else changed. *)
Lemma getter_call name g r (c : call) : passes gi g c -> canonicalize_get other (AGet g) = Ok r ->
  exists c', same_but_get gi c c' /\ passes gi (match snd r with None => GNone | Some l => GSeq l end) c'
    /\ getter other gi defaults fn name (fst c) (snd c)
       = bind (fn (fst c') (snd c')) (canonicalize_output name (fst r) (snd r)).
Proof.
  destruct c as [args kw]; intros [H|[H1 H2]] E; cbn [fst snd] in *; unfold getter.
  - exists (args, kw_set "get" (canonical_arg (snd r)) kw); cbn [fst snd]. rewrite H, E; cbn [bind].
    split; [|split].
    + split; [reflexivity|]. split; [eapply kw_set_keys; eauto|]. split; [reflexivity|]. split; [|reflexivity].
      intros k Hk. simpl. rewrite kw_set_get. destruct (String.eqb_spec k "get"); congruence.
    + left. simpl. now rewrite kw_set_get.
    + destruct r; reflexivity.
  - exists (set_arg args gi (canonical_arg (snd r)), kw); cbn [fst snd]. rewrite H1, H2, E; cbn [bind].
    split; [|split].
    + split; [apply set_arg_length|]. split; [reflexivity|]. split; [intros; now apply set_arg_other|].
      split; [reflexivity|]. simpl. congruence.
    + right; simpl; split; auto. eapply set_arg_same; eauto.
    + destruct r; reflexivity.
Qed.

Lemma mapR_lookup (d : list (string * K)) l vals : Forall2 (fun n v => kw_get n d = Some v) l vals ->
  mapR (lookup d) l = Ok vals.
Proof. induction 1 as [|n v l vals H _ IH]; simpl; auto. unfold lookup at 1. now rewrite H; simpl; rewrite IH. Qed.

Lemma mapR_missing (d : list (string * K)) l n : In n l -> kw_get n d = None ->
  exists e, mapR (lookup d) l = Raise e /\ e = KeyError.
Proof.
  induction l as [|m l IH]; simpl; [tauto|]. intros [->|H] E.
  - unfold lookup at 1; rewrite E; simpl; eauto.
  - destruct (IH H E) as (e & -> & ->). unfold lookup. destruct (kw_get m d); simpl; eauto.
Qed.

Theorem select_str name s (c : call) : s <> EmptyString -> passes gi (GStr s) c ->
  exists c', same_but_get gi c c' /\ passes gi (GSeq [lower s]) c'
    /\ (forall e, fn (fst c') (snd c') = Raise e -> getter other gi defaults fn name (fst c) (snd c) = Raise e)
    /\ forall o d, fn (fst c') (snd c') = Ok o -> is_dict o d ->
       getter other gi defaults fn name (fst c) (snd c)
       = match kw_get (lower s) d with Some k => Ok (RBare k) | None => Raise KeyError end.
Proof.
  intros Hs Hp. pose proof (canonicalize_req _ _ (req_str s Hs)) as E.
  destruct (getter_call name _ _ _ Hp E) as (c' & H1 & H2 & H3).
  exists c'. split; auto. split; [exact H2|]. rewrite H3. split.
  - intros e ->; reflexivity.
  - intros o d -> [-> | ->]; simpl; unfold lookup; destruct (kw_get (lower s) d); reflexivity.
Qed.

Theorem select_seq name l (c : call) : l <> [] -> NoDup (map lower l) -> passes gi (GSeq l) c ->
  exists c', same_but_get gi c c' /\ passes gi (GSeq (map lower l)) c'
    /\ (forall e, fn (fst c') (snd c') = Raise e -> getter other gi defaults fn name (fst c) (snd c) = Raise e)
    /\ forall o d, fn (fst c') (snd c') = Ok o -> is_dict o d ->
       (forall vals, Forall2 (fun n v => kw_get n d = Some v) (map lower l) vals ->
          getter other gi defaults fn name (fst c) (snd c) = Ok (RTuple name (map lower l) vals))
       /\ (forall n, In n (map lower l) -> kw_get n d = None ->
          getter other gi defaults fn name (fst c) (snd c) = Raise KeyError).
Proof.
  intros Hl Hn Hp. pose proof (canonicalize_req _ _ (req_seq l Hl Hn)) as E.
  destruct (getter_call name _ _ _ Hp E) as (c' & H1 & H2 & H3).
  exists c'. split; auto. split; [exact H2|]. rewrite H3. split.
  - intros e ->; reflexivity.
  - intros o d -> Ho. split.
    + intros vals Hv. apply mapR_lookup in Hv.
      destruct Ho as [-> | ->]; cbn [bind fst snd canonicalize_output as_dict]; unfold select; rewrite Hv; reflexivity.
    + intros n Hin E0. destruct (mapR_missing d _ n Hin E0) as (e & Hm & ->).
      destruct Ho as [-> | ->]; cbn [bind fst snd canonicalize_output as_dict]; unfold select; rewrite Hm; reflexivity.
Qed.

Theorem select_none name (c : call) : passes gi GNone c ->
  exists c', same_but_get gi c c' /\ passes gi GNone c'
    /\ forall o, fn (fst c') (snd c') = Ok o ->
       match o with
       | ODict d => getter other gi defaults fn name (fst c) (snd c) = Ok (RTuple name (map fst d) (map snd d))
       | ONode _ _ => True
       | _ => getter other gi defaults fn name (fst c) (snd c) = Ok (RSame o)
       end.
Proof.
  intros Hp. destruct (getter_call name _ (true, None) _ Hp eq_refl) as (c' & H1 & H2 & H3).
  exists c'. split; auto. split; [exact H2|]. rewrite H3. intros o ->. destruct o; reflexivity.
Qed.

Theorem select_rejects name g (c : call) : unacceptable g -> passes gi g c ->
  getter other gi defaults fn name (fst c) (snd c) = Raise ValueError.
Proof.
  intros Hb Hp. apply canonicalize_bad in Hb. unfold getter. destruct c as [args kw].
  destruct Hp as [H|[H1 H2]]; cbn [fst snd] in *.
  - now rewrite H, Hb.
  - now rewrite H1, H2, Hb.
Qed.

(** Generators and trees: element by element. *)
Theorem select_generator name g l (c : call) : requests g l -> passes gi g c ->
  exists c', same_but_get gi c c' /\ passes gi (GSeq l) c'
    /\ forall os ds, fn (fst c') (snd c') = Ok (OGen os) -> Forall2 is_dict os ds ->
       exists rs, getter other gi defaults fn name (fst c) (snd c) = Ok (RGen rs)
         /\ Forall2 (fun d r => forall vals, Forall2 (fun n v => kw_get n d = Some v) l vals ->
              r = Ok (match g with GStr _ => match vals with v :: _ => RBare v | [] => RTuple name l vals end
                               | _ => RTuple name l vals end)) ds rs.
Proof.
  intros Hr Hp. pose proof (canonicalize_req _ _ Hr) as E.
  destruct (getter_call name _ _ _ Hp E) as (c' & H1 & H2 & H3).
  exists c'. split; auto. split; [exact H2|]. intros os ds Ho Hd.
  eexists. split; [rewrite H3, Ho; reflexivity|]. clear Ho.
  induction Hd as [|o d os ds Hod _ IH]; simpl; constructor; auto.
  - intros vals Hv.
    assert (as_dict o = Ok d) as -> by (destruct Hod as [-> | ->]; reflexivity).
    unfold select; cbn [bind fst]. inversion Hr; subst.
    + inversion Hv as [|? v ? ? Hv1 Hv2]; subst. inversion Hv2; subst. unfold lookup. now rewrite Hv1.
    + now rewrite (mapR_lookup _ _ _ Hv).
Qed.

Theorem select_individual name l s (c c0 : call) vals k : coherent gi fn ->
  same_but_get gi c c0 -> passes gi (GSeq l) c -> passes gi (GStr s) c0 -> In s l ->
  (forall c o, fn (fst c) (snd c) = Ok o -> exists d, is_dict o d) ->
  getter other gi defaults fn name (fst c) (snd c) = Ok (RTuple name (map lower l) vals) ->
  getter other gi defaults fn name (fst c0) (snd c0) = Ok (RBare k) ->
  exists i, nth_error (map lower l) i = Some (lower s) /\ nth_error vals i = Some k.
Proof.
  intros Hc Hs Hp Hp0 Hin Hd E E0.
  destruct (canonicalize_get other (AGet (GSeq l))) as [r|e] eqn:Er.
  2:{ exfalso. unfold getter in E. destruct c as [args kw]. destruct Hp as [H|[H1 H2]]; cbn [fst snd] in *.
      - rewrite H, Er in E; discriminate.
      - rewrite H1, H2, Er in E; discriminate. }
  destruct (canonicalize_get other (AGet (GStr s))) as [r0|e] eqn:Er0.
  2:{ exfalso. unfold getter in E0. destruct c0 as [args kw]. destruct Hp0 as [H|[H1 H2]]; cbn [fst snd] in *.
      - rewrite H, Er0 in E0; discriminate.
      - rewrite H1, H2, Er0 in E0; discriminate. }
  destruct (getter_call name _ _ _ Hp Er) as (c' & H1 & H2 & H3).
  destruct (getter_call name _ _ _ Hp0 Er0) as (c0' & I1 & I2 & I3).
  assert (r = (false, Some (map lower l))) as ->.
  { destruct l as [|x l]; [discriminate|]. unfold canonicalize_get in Er.
    destruct (str_nodup _); congruence. }
  assert (r0 = (true, Some [lower s])) as -> by (destruct s; simpl in *; congruence).
  simpl in H2, I2. rewrite H3 in E. rewrite I3 in E0.
  destruct (fn (fst c') (snd c')) as [o|] eqn:Eo; [|discriminate].
  destruct (fn (fst c0') (snd c0')) as [o0|] eqn:Eo0; [|discriminate].
  destruct (Hd _ _ Eo) as (d & Hod). destruct (Hd _ _ Eo0) as (d0 & Hod0).
  assert (mapR (lookup d) (map lower l) = Ok vals) as Em.
  { destruct Hod as [-> | ->]; cbn [bind fst snd canonicalize_output as_dict] in E; unfold select in E;
      destruct (mapR (lookup d) (map lower l)); cbn [rmap] in E; congruence. }
  assert (lookup d0 (lower s) = Ok k) as Ek.
  { destruct Hod0 as [-> | ->]; cbn [bind fst snd canonicalize_output as_dict] in E0; unfold select in E0;
      destruct (lookup d0 (lower s)); cbn [rmap] in E0; congruence. }
  assert (kw_get (lower s) d = kw_get (lower s) d0) as Ed.
  { eapply (Hc c' c0'); eauto; [|apply in_map; exact Hin|left; reflexivity].
    destruct H1 as (A1 & A2 & A3 & A4 & A5), I1 as (B1 & B2 & B3 & B4 & B5), Hs as (C1 & C2 & C3 & C4 & C5).
    split; [congruence|]. split; [congruence|]. split; [intros; rewrite B3, A3; auto|].
    split; [intros; rewrite B4, A4; auto|]. intros Hk.
    assert (kw_get "get" (snd c) <> None) as Hk1.
    { intros P. apply Hk. now apply (kw_get_keys _ (snd c)). }
    assert (kw_get "get" (snd c0) <> None) as Hk2.
    { intros P. apply Hk1. apply (kw_get_keys _ (snd c0)); auto. }
    rewrite B5, A5, C5; auto. }
  unfold lookup in Ek. rewrite <- Ed in Ek. clear - Em Ek Hin.
  revert vals Em. induction l as [|x l IH]; intros vals Em; [destruct Hin|].
  cbn [map mapR] in Em. unfold lookup at 1 in Em.
  destruct (kw_get (lower x) d) as [kx|] eqn:Ex; [|discriminate]. cbn [bind] in Em.
  destruct (mapR (lookup d) (map lower l)) as [vs|] eqn:El; [|discriminate]. injection Em as <-.
  destruct Hin as [->|Hin].
  - exists 0; simpl. split; auto. rewrite Ex in Ek; congruence.
  - destruct (IH Hin vs eq_refl) as (i & A & B). exists (S i); auto.
Qed.

(** ** Omitting [get] *)

(** The declared default: [n] positional parameters, the last [length ds] of them
    with defaults. *)
Definition declared_default (n : nat) (ds : list (arg V)) : option (arg V) :=
  if n - List.length ds <=? gi then nth_error ds (gi - (n - List.length ds)) else None.

Theorem default_right name n ds g r (c : call) :
  defaults = Some ds -> declared_default n ds = Some (AGet g) ->
  canonicalize_get other (AGet g) = Ok r ->
  kw_get "get" (snd c) = None -> List.length (fst c) <= gi ->
  List.length (fst c) = n - List.length ds ->
  (** omitting the default is passing its canonical form *)
  fn (fst c) (snd c) = fn (fst c) (kw_set "get" (canonical_arg (snd r)) (snd c)) ->
  getter other gi defaults fn name (fst c) (snd c)
  = getter other gi defaults fn name (fst c) (kw_set "get" (AGet g) (snd c)).
Proof.
  destruct c as [args kw]; cbn [fst snd]. intros -> Hd Hr Hk Hl Hn Hfn. unfold getter.
  rewrite Hk. rewrite kw_set_get. simpl String.eqb. cbv iota.
  rewrite (proj2 (nth_error_None args gi) Hl). unfold declared_default in Hd.
  destruct (Nat.leb_spec (n - List.length ds) gi); [|discriminate].
  rewrite Hn, Hd, Hr. cbn [bind]. destruct r as [b g']. cbn [snd] in *.
  rewrite Hfn. f_equal. f_equal.
  now rewrite kw_set_set.
Qed.

(** When all defaults up to that of [get] are the same value as its own, the number
    of positional arguments may be larger. *)
Theorem default_uniform name n ds g r (c : call) :
  defaults = Some ds -> declared_default n ds = Some (AGet g) ->
  canonicalize_get other (AGet g) = Ok r ->
  kw_get "get" (snd c) = None -> List.length (fst c) <= gi ->
  n - List.length ds <= List.length (fst c) ->
  (forall i a, i <= gi - (n - List.length ds) -> nth_error ds i = Some a -> a = AGet g) ->
  fn (fst c) (snd c) = fn (fst c) (kw_set "get" (canonical_arg (snd r)) (snd c)) ->
  getter other gi defaults fn name (fst c) (snd c)
  = getter other gi defaults fn name (fst c) (kw_set "get" (AGet g) (snd c)).
Proof.
  destruct c as [args kw]; cbn [fst snd]. intros -> Hd Hr Hk Hl Hn Hu Hfn. unfold getter.
  rewrite Hk. rewrite kw_set_get. simpl String.eqb. cbv iota.
  rewrite (proj2 (nth_error_None args gi) Hl). unfold declared_default in Hd.
  destruct (Nat.leb_spec (n - List.length ds) gi); [|discriminate].
  assert (nth_error ds (gi - List.length args) = Some (AGet g)) as Hds.
  { assert (gi - (n - List.length ds) < List.length ds) by (apply nth_error_Some; congruence).
    destruct (nth_error ds (gi - List.length args)) as [a|] eqn:Ea.
    - f_equal. apply (Hu (gi - List.length args)); auto. lia.
    - apply nth_error_None in Ea. lia. }
  rewrite Hds, Hr. cbn [bind]. destruct r as [b g']. cbn [snd] in *.
  rewrite Hfn. f_equal. f_equal.
  now rewrite kw_set_set.
Qed.

(** Fewer positional arguments than required parameters: the lookup runs off the
    end of the defaults when [get] is the last parameter. *)
Theorem default_index_error name n ds (c : call) :
  defaults = Some ds -> gi = n - 1 -> List.length ds <= n -> 1 <= n ->
  kw_get "get" (snd c) = None -> List.length (fst c) < n - List.length ds ->
  getter other gi defaults fn name (fst c) (snd c) = Raise IndexError.
Proof.
  destruct c as [args kw]; cbn [fst snd]. intros -> Hg Hd H1 Hk Hl. unfold getter. rewrite Hk.
  rewrite (proj2 (nth_error_None args gi)) by lia.
  rewrite (proj2 (nth_error_None ds _)) by lia. reflexivity.
Qed.
End Get.
