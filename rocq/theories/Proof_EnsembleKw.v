(** Proofs about Model_EnsembleKw.v. *)
From Coq Require Import List Bool String.
From Verif Require Import Base Model_Predict Model_Ensemble Model_Kwargs Model_EnsembleKw Spec_EnsembleKw.
Import ListNotations.

Section Keywords.
Context {X Key W K : Type}.
Notation kwval := (@kwval Key W).
Notation kwargs := (list (string * kwval)).
Variable same : X -> X -> bool.
Variable key_same : Key -> Key -> bool.
Variable fold_in : Key -> Key.
Variable array : W -> bool.
Variable differ : kwval -> kwval -> result bool.

Definition upd (f : string -> option kwval) (d : kwargs) : kwargs :=
  map (fun '(k, v) => (k, match f k with Some v' => v' | None => v end)) d.

Lemma upd_keys f d : map fst (upd f d) = map fst d.
Proof. unfold upd. rewrite map_map. apply map_ext. now intros [k v]. Qed.

Lemma upd_ext f g d : (forall k, In k (map fst d) -> f k = g k) -> upd f d = upd g d.
Proof.
  intros E. apply map_ext_in. intros [k v] H. rewrite E; [reflexivity|]. apply (in_map fst) in H. exact H.
Qed.

Lemma upd_upd f g d : upd f (upd g d) = upd (fun k => match f k with Some v => Some v | None => g k end) d.
Proof.
  unfold upd. rewrite map_map. apply map_ext. intros [k v]. now destruct (f k), (g k).
Qed.

Lemma upd_none f d : (forall k, In k (map fst d) -> f k = None) -> upd f d = d.
Proof.
  intros E. unfold upd. rewrite <- (map_id d) at 2. apply map_ext_in. intros [k v] H.
  rewrite E; [reflexivity|]. apply (in_map fst) in H. exact H.
Qed.

Lemma find_in k (d : kwargs) : In k (map fst d) <-> exists v, kw_find k d = Some v.
Proof.
  induction d as [|[k' v] d IH]; cbn.
  - split; [tauto|]. intros [v E]. discriminate.
  - destruct (String.eqb_spec k k') as [->|N].
    + split; [|tauto]. intros _. now exists v.
    + rewrite <- IH. split; [|tauto]. intros [E|H]; [congruence|exact H].
Qed.

Lemma find_entry k v (d : kwargs) : NoDup (map fst d) -> In (k, v) d -> kw_find k d = Some v.
Proof.
  induction d as [|[k' v'] d IH]; cbn; [tauto|]. intros N H. inversion N as [|? ? N1 N2]; subst.
  destruct H as [E|H].
  - injection E as -> ->. now rewrite String.eqb_refl.
  - destruct (String.eqb_spec k k') as [->|_]; [|now apply IH].
    exfalso. apply N1. apply (in_map fst) in H. exact H.
Qed.

Lemma find_map (f : string -> kwval -> kwval) k (d : kwargs) :
  kw_find k (map (fun '(k, v) => (k, f k v)) d) = option_map (f k) (kw_find k d).
Proof.
  induction d as [|[k' v] d IH]; cbn; [reflexivity|].
  destruct (String.eqb_spec k k') as [->|_]; [reflexivity|exact IH].
Qed.

Lemma set_upd k v (d : kwargs) : NoDup (map fst d) -> In k (map fst d) ->
  kw_set k v d = upd (fun k' => if String.eqb k' k then Some v else None) d.
Proof.
  induction d as [|[k' v'] d IH]; cbn; [tauto|]. intros N H. inversion N as [|? ? N1 N2]; subst.
  rewrite String.eqb_sym. destruct (String.eqb_spec k' k) as [->|E].
  - f_equal. symmetry. apply upd_none. intros k' H'. destruct (String.eqb_spec k' k) as [->|_]; [contradiction|reflexivity].
  - f_equal. apply IH; [exact N2|]. destruct H as [H|H]; [congruence|exact H].
Qed.

(** ** Combining *)
Lemma combine_ok (g : string -> kwval) train args_train args_test : NoDup (map fst train) -> forall todo td tt,
  NoDup (map fst todo) -> map fst td = map fst train -> map fst tt = map fst train ->
  (forall k v, In (k, v) todo -> exists v_dd, kw_find k train = Some v_dd
     /\ value_td array differ args_test args_train k v_dd v = Ok (g k)) ->
  combine_kwargs array differ train args_train args_test todo td tt
  = Ok (upd (fun k => match kw_find k todo with Some _ => Some (g k) | None => None end) td,
        upd (fun k => kw_find k todo) tt).
Proof.
  intros Nt. induction todo as [|[k v] todo IH]; intros td tt N Etd Ett H; cbn [combine_kwargs].
  - cbn [kw_find]. rewrite !upd_none by reflexivity. reflexivity.
  - inversion N as [|? ? N1 N2]; subst. cbn [fst] in N1.
    destruct (H k v (or_introl eq_refl)) as (v_dd & F & V).
    unfold kw_item at 1. rewrite F. cbn [bind]. rewrite V. cbn [bind].
    assert (Ik : In k (map fst train)) by (apply find_in; now exists v_dd).
    rewrite !set_upd by (rewrite ?Etd, ?Ett; assumption).
    rewrite IH; [|exact N2|now rewrite upd_keys|now rewrite upd_keys|intros k' v' I; apply H; now right].
    rewrite !upd_upd. do 2 f_equal; apply upd_ext; intros k' _; cbn [kw_find].
    + destruct (kw_find k' todo) eqn:F'.
      * destruct (String.eqb_spec k' k) as [->|_]; reflexivity.
      * destruct (String.eqb_spec k' k) as [->|_]; reflexivity.
    + destruct (kw_find k' todo) eqn:F'.
      * destruct (String.eqb_spec k' k) as [->|_]; [|reflexivity].
        exfalso. apply N1. apply find_in. eauto.
      * destruct (String.eqb_spec k' k) as [->|_]; reflexivity.
Qed.

Lemma combine_inv train args_train args_test : forall todo td tt r,
  combine_kwargs array differ train args_train args_test todo td tt = Ok r ->
  forall k v, In (k, v) todo -> exists v_dd w, kw_find k train = Some v_dd
    /\ value_td array differ args_test args_train k v_dd v = Ok w.
Proof.
  induction todo as [|[k v] todo IH]; intros td tt r E k' v' I; [destruct I|]. cbn [combine_kwargs] in E.
  unfold kw_item at 1 in E. destruct (kw_find k train) as [v_dd|] eqn:F; [|discriminate]. cbn [bind] in E.
  destruct (value_td array differ args_test args_train k v_dd v) as [w|] eqn:V; [|discriminate]. cbn [bind] in E.
  destruct I as [I|I]; [|now apply (IH _ _ _ E)].
  injection I as <- <-. now exists v_dd, w.
Qed.

(** ** Splitting *)
Definition other (v : kwval) : kwval := match v with VPair _ b => b | _ => v end.

Lemma split_alone (x : nttree X) (d : kwargs) :
  split_kwargs same key_same fold_in d x None = Ok (own_kwargs d, map (fun '(k, v) => (k, other v)) d).
Proof.
  induction d as [|[k v] d IH]; cbn [split_kwargs]; [reflexivity|].
  rewrite IH. now destruct v.
Qed.

Definition sides (x1 x2 : nttree X) (k : string) (v : kwval) : result (kwval * kwval) :=
  if String.eqb k "rng" then read_keys same key_same fold_in v x1 x2 else Ok (own v, other v).

Lemma split_two (x1 x2 : nttree X) (f p q : string -> kwval -> kwval) (d : kwargs) :
  (forall k v, In (k, v) d -> sides x1 x2 k (f k v) = Ok (p k v, q k v)) ->
  split_kwargs same key_same fold_in (map (fun '(k, v) => (k, f k v)) d) x1 (Some x2)
  = Ok (map (fun '(k, v) => (k, p k v)) d, map (fun '(k, v) => (k, q k v)) d).
Proof.
  induction d as [|[k v] d IH]; intros H; [reflexivity|]. cbn [map split_kwargs].
  specialize (IH (fun k' v' I => H k' v' (or_intror I))). specialize (H k v (or_introl eq_refl)). unfold sides in H.
  destruct (String.eqb k "rng").
  - rewrite H. cbn [bind]. rewrite IH. reflexivity.
  - replace (match f k v with VPair a b => Ok (a, b) | _ => Ok (f k v, f k v) end) with (Ok (p k v, q k v)).
    + cbn [bind]. rewrite IH. reflexivity.
    + rewrite <- H. destruct (f k v); reflexivity.
Qed.

(** ** The keywords of the three calls *)
Definition td_value (test : kwargs) (k : string) (v : kwval) : kwval :=
  match kw_find k test with
  | None => v
  | Some v' =>
      match v, v' with
      | VPair a _, VPair b _ => if is_array array v && is_array array v' then VPair b a else v'
      | _, _ => v'
      end
  end.

Lemma value_td_eq (train test : kwargs) k v v' w : NoDup (map fst train) -> NoDup (map fst test) ->
  In (k, v) train -> In (k, v') test ->
  (value_td array differ (own_kwargs test) (own_kwargs train) k v v' = Ok w
   <-> (is_array array v && is_array array v' = false -> differ v v' = Ok false) /\ w = td_value test k v).
Proof.
  intros N1 N2 I1 I2. pose proof (find_entry _ _ _ N1 I1) as F1. pose proof (find_entry _ _ _ N2 I2) as F2.
  unfold value_td, td_value, kw_item, own_kwargs. rewrite !(find_map (fun _ => own)), F1, F2. cbn [option_map bind].
  destruct (is_array array v && is_array array v') eqn:A.
  - destruct v as [| |a a'|], v' as [| |b b'|]; cbn [is_pair andb bind own];
      (split; [intros E; injection E as <-; split; [discriminate|reflexivity]|intros [_ ->]; reflexivity]).
  - destruct (differ v v') as [[]|] eqn:D; cbn [bind].
    + split; [discriminate|]. intros [H _]. specialize (H eq_refl). discriminate.
    + destruct v as [| |a a'|], v' as [| |b b'|];
      (split; [intros E; injection E as <-; split; [reflexivity|reflexivity]|intros [_ ->]; reflexivity]).
    + split; [discriminate|]. intros [H _]. specialize (H eq_refl). discriminate.
Qed.

Lemma upd_at_prediction test train : upd (fun k => kw_find k test) train = overridden train test.
Proof. reflexivity. Qed.

Lemma kwargs_of_calls (x_train x_test : nttree X) (train test td tt : kwargs) :
  NoDup (map fst train) -> NoDup (map fst test) ->
  (td_tt_kwargs same key_same fold_in array differ x_train x_test train test = Ok (td, tt)
   <-> (forall k v', In (k, v') test -> exists v, In (k, v) train
          /\ (is_array array v && is_array array v' = false -> differ v v' = Ok false))
       /\ td = map (fun '(k, v) => (k, td_value test k v)) train /\ tt = overridden train test).
Proof.
  intros N1 N2. unfold td_tt_kwargs. rewrite !split_alone. cbn [bind].
  assert (Train : forall k v, kw_find k train = Some v -> In (k, v) train).
  { clear. induction train as [|[k' v'] d IH]; cbn; [discriminate|]. intros k v E.
    destruct (String.eqb_spec k k') as [->|_]; [injection E as ->; now left|right; now apply IH]. }
  assert (Good : (forall k v', In (k, v') test -> exists v, In (k, v) train
          /\ (is_array array v && is_array array v' = false -> differ v v' = Ok false)) ->
     combine_kwargs array differ train (own_kwargs train) (own_kwargs test) test train train
     = Ok (map (fun '(k, v) => (k, td_value test k v)) train, overridden train test)).
  { intros H. rewrite (combine_ok (fun k => match kw_find k train with Some v => td_value test k v | None => VNone end));
      try assumption; try reflexivity.
    - rewrite upd_at_prediction. do 2 f_equal. apply map_ext_in. intros [k v] I. f_equal.
      rewrite (find_entry _ _ _ N1 I). unfold td_value. now destruct (kw_find k test).
    - intros k v' I. destruct (H k v' I) as (v & I1 & D). exists v. split; [now apply find_entry|].
      rewrite (find_entry _ _ _ N1 I1). apply (value_td_eq train); try assumption. split; [exact D|reflexivity]. }
  split.
  - intros E. assert (H : forall k v', In (k, v') test -> exists v, In (k, v) train
          /\ (is_array array v && is_array array v' = false -> differ v v' = Ok false)).
    { intros k v' I. destruct (combine_inv _ _ _ _ _ _ _ E k v' I) as (v & w & F & V).
      exists v. split; [now apply Train|]. apply value_td_eq in V; [tauto|assumption|assumption|now apply Train|assumption]. }
    split; [exact H|]. rewrite (Good H) in E. injection E as <- <-. now split.
  - intros (H & -> & ->). now apply Good.
Qed.

(** ** The three kernels *)
Variable G : list mode -> nttree X -> kwargs -> nttree X -> kwargs -> K.

Lemma settled_sides (x_train x_test : nttree X) (train test : kwargs) k v : all_none x_train = false ->
  settled same key_same array x_train x_test k v (kw_find k test) ->
  sides x_test x_train k (td_value test k v) = Ok (own (at_prediction test k v), own v).
Proof.
  intros A. unfold settled, sides, td_value, at_prediction. destruct (String.eqb k "rng").
  - intros [[-> [-> | ->]]|(a & a' & b & b' & -> & -> & H)]; [reflexivity|reflexivity|].
    cbn [is_array andb own]. cbn [read_keys]. rewrite A.
    destruct H as [[-> ->]|[-> ->]]; reflexivity.
  - intros [(a & a' & b & b' & -> & -> & Ha & Hb)|[B [-> | ->]]].
    + rewrite Ha, Hb. reflexivity.
    + destruct v; cbn in B |- *; subst; reflexivity.
    + destruct v as [| |a b|]; cbn [own other] in B |- *; try reflexivity. cbn in B. subst.
      destruct (is_array array (VPair b b) && is_array array (VPair b b)); reflexivity.
Qed.

Lemma settled_accepted (x_train x_test : nttree X) k v v' : (forall v, is_array array v = false -> differ v v = Ok false) ->
  settled same key_same array x_train x_test k v (Some v') ->
  is_array array v && is_array array v' = false -> differ v v' = Ok false.
Proof.
  intros D H A. unfold settled in H. destruct (String.eqb k "rng").
  - destruct H as [[-> [E|E]]|(a & a' & b & b' & -> & E & _)]; try discriminate; injection E as ->; discriminate.
  - destruct H as [(a & a' & b & b' & -> & E & Ha & Hb)|[B [E|E]]]; try discriminate; injection E as ->.
    + rewrite Ha, Hb in A. discriminate.
    + apply D. now destruct (is_array array v).
Qed.

Lemma kernel_blocks (x_train x_test : nttree X) (train test : kwargs) get dep :
  NoDup (map fst train) -> NoDup (map fst test) -> all_none x_train = false ->
  (forall v, is_array array v = false -> differ v v = Ok false) ->
  (forall k, In k (map fst test) -> In k (map fst train)) ->
  (forall k v, In (k, v) train -> settled same key_same array x_train x_test k v (kw_find k test)) ->
  get_dependency get true = Ok dep ->
  kernels_of_calls same key_same fold_in array differ (of_networks same key_same fold_in G) x_train train get (Some x_test) true test
  = Ok (G dep x_train (own_kwargs train) x_train (own_kwargs train),
        Some (G dep x_test (own_kwargs (overridden train test)) x_train (own_kwargs train)),
        Some (Some (G [Nngp] x_test (own_kwargs (overridden train test)) x_test (own_kwargs (overridden train test))))).
Proof.
  intros N1 N2 A D Sub S Dep. unfold kernels_of_calls. rewrite Dep. cbn [bind]. unfold of_networks at 1.
  rewrite split_alone. cbn [bind].
  replace (td_tt_kwargs same key_same fold_in array differ x_train x_test train test)
    with (Ok (map (fun '(k, v) => (k, td_value test k v)) train, overridden train test)).
  2:{ symmetry. apply kwargs_of_calls; try assumption. split; [|now split].
      intros k v' I. assert (Ik : In k (map fst train)) by (apply Sub; apply (in_map fst) in I; exact I).
      apply in_map_iff in Ik. destruct Ik as ([k0 v] & E & I1). cbn in E. subst k0. exists v. split; [exact I1|].
      apply (settled_accepted x_train x_test k); [exact D|]. rewrite <- (find_entry _ _ _ N2 I). now apply S. }
  cbn [bind]. unfold of_networks at 1.
  rewrite (split_two x_test x_train (td_value test) (fun k v => own (at_prediction test k v)) (fun _ => own)).
  - cbn [bind]. rewrite A. unfold of_networks. rewrite split_alone. cbn [bind].
    do 4 f_equal. unfold own_kwargs, overridden. rewrite map_map. f_equal. apply map_ext. now intros [k v].
  - intros k v I. apply (settled_sides _ _ train); [exact A|now apply S].
Qed.
End Keywords.

(** ** Where it fails *)
Section Failures.
Context {X Key W K : Type}.
Notation kwval := (@kwval Key W).
Notation kwargs := (list (string * kwval)).
Variable same : X -> X -> bool.
Variable key_same : Key -> Key -> bool.
Variable fold_in : Key -> Key.
Variable array : W -> bool.
Variable differ : kwval -> kwval -> result bool.
Variable G : list mode -> nttree X -> kwargs -> nttree X -> kwargs -> K.

Lemma one_array (x_train x_test : nttree X) k w w' get dep : all_none x_train = false ->
  String.eqb k "rng" = false -> array w = true -> array w' = true -> get_dependency get false = Ok dep ->
  kernels_of_calls same key_same fold_in array differ (of_networks same key_same fold_in G) x_train
    [(k, VOther w)] get (Some x_test) false [(k, VOther w')]
  = Ok (G dep x_train [(k, VOther w)] x_train [(k, VOther w)],
        Some (G dep x_test [(k, VOther w')] x_train [(k, VOther w')]), None).
Proof.
  intros A E H1 H2 D. unfold kernels_of_calls. rewrite D. cbn [bind].
  unfold td_tt_kwargs, of_networks. rewrite !split_alone. cbn [bind own_kwargs map combine_kwargs kw_item kw_find own].
  unfold kw_item. cbn [kw_find]. rewrite String.eqb_refl. cbn [bind]. unfold value_td. cbn [is_array is_pair andb]. rewrite H1, H2.
  cbn [andb bind kw_set]. rewrite String.eqb_refl. cbn [split_kwargs]. rewrite E. cbn [bind rmap fst snd]. rewrite A. reflexivity.
Qed.

Lemma one_array_wrong (x_train x_test : nttree X) k w w' get dep : all_none x_train = false ->
  String.eqb k "rng" = false -> array w = true -> array w' = true -> w <> w' -> get_dependency get false = Ok dep ->
  exists other, kernels_of_calls same key_same fold_in array differ (of_networks same key_same fold_in G) x_train
      [(k, VOther w)] get (Some x_test) false [(k, VOther w')]
    = Ok (G dep x_train (own_kwargs [(k, VOther w)]) x_train (own_kwargs [(k, VOther w)]),
          Some (G dep x_test (own_kwargs [(k, VOther w')]) x_train other), None)
    /\ other <> own_kwargs [(k, VOther w)].
Proof.
  intros A E H1 H2 N D. exists [(k, VOther w')]. split; [now apply one_array|].
  cbn. intros e. injection e as e. now apply N.
Qed.

Lemma dropped_pair (x_train x_test : nttree X) k w w' get dep : all_none x_train = false ->
  String.eqb k "rng" = false -> array w = true -> array w' = true -> get_dependency get false = Ok dep ->
  kernels_of_calls same key_same fold_in array differ (of_networks same key_same fold_in G) x_train
    [(k, VPair (VOther w) (VOther w'))] get (Some x_test) false [(k, VNone)]
  = Ok (G dep x_train [(k, VOther w)] x_train [(k, VOther w)],
        Some (G dep x_test [(k, VNone)] x_train [(k, VNone)]), None).
Proof.
  intros A E H1 H2 D. unfold kernels_of_calls. rewrite D. cbn [bind].
  unfold td_tt_kwargs, of_networks. rewrite !split_alone. cbn [bind own_kwargs map combine_kwargs kw_item kw_find own].
  unfold kw_item. cbn [kw_find]. rewrite String.eqb_refl. cbn [bind]. unfold value_td. cbn [is_array is_pair andb]. rewrite H1, H2.
  cbn [andb bind kw_set]. rewrite String.eqb_refl. cbn [split_kwargs]. rewrite E. cbn [bind rmap fst snd]. rewrite A. reflexivity.
Qed.

Lemma one_key (x_train x_test : nttree X) key get dep : all_none x_train = false ->
  x1_is_x2 same x_test x_train = Ok false -> get_dependency get false = Ok dep ->
  kernels_of_calls same key_same fold_in array differ (of_networks same key_same fold_in G) x_train
    [("rng"%string, VKey key)] get (Some x_test) false []
  = Ok (G dep x_train [("rng"%string, VKey key)] x_train [("rng"%string, VKey key)],
        Some (G dep x_test [("rng"%string, VKey key)] x_train [("rng"%string, VKey (fold_in key))]), None).
Proof.
  intros A S D. unfold kernels_of_calls. rewrite D. cbn [bind].
  unfold td_tt_kwargs, of_networks. rewrite !split_alone. cbn [bind own_kwargs map combine_kwargs own].
  cbn [split_kwargs String.eqb Ascii.eqb Bool.eqb read_keys]. rewrite A, S. reflexivity.
Qed.

Lemma new_keyword (x_train x_test : nttree X) (train test : kwargs) k : NoDup (map fst train) -> NoDup (map fst test) ->
  In k (map fst test) -> ~ In k (map fst train) -> 
  exists e, td_tt_kwargs same key_same fold_in array differ x_train x_test train test = Raise e.
Proof.
  intros N1 N2 I1 I2. destruct (td_tt_kwargs same key_same fold_in array differ x_train x_test train test) as [[td tt]|e] eqn:E;
    [|now exists e].
  exfalso. apply kwargs_of_calls in E; try assumption. destruct E as [H _].
  apply in_map_iff in I1. destruct I1 as ([k0 v] & Ek & I). cbn in Ek. subst k0.
  destruct (H k v I) as (v' & I' & _). apply I2. apply (in_map fst) in I'. exact I'.
Qed.
End Failures.
