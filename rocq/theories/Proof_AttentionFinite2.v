(** The output of attention as a polynomial in its parameters. *)
From Coq Require Import Reals List Arith Lia Lra Bool.
From Coquelicot Require Import Coquelicot.
From Verif Require Import Base Model_Geom Model_Net Model_Finite Spec_Geom Spec_Predict Spec_Finite Spec_Conv Model_Attention Model_AttentionApply Spec_Attention
  Spec_AttentionFinite Proof_Geom Proof_Net Proof_Finite Proof_Finite4 Proof_MaskStats Proof_AttentionFinite.
Import ListNotations.
Local Open Scope R_scope.

Lemma NoDup_prod {A B} (l : list A) (l' : list B) : NoDup l -> NoDup l' -> NoDup (list_prod l l').
Proof.
  intros H H'. induction H as [|a l Ha Hl IH]; cbn; [constructor|].
  assert (Happ : forall l1 l2 : list (A * B), NoDup l1 -> NoDup l2 -> (forall b, In b l1 -> ~ In b l2) -> NoDup (l1 ++ l2)).
  { induction l1 as [|b l1 IH1]; intros l2 H1 H2 Hn; cbn; auto.
    inversion H1 as [|? ? Hb1 Hl1]; subst. constructor.
    - rewrite in_app_iff; intros [X|X]; auto. apply (Hn b); cbn; auto.
    - apply IH1; auto. intros b' Hb'. apply Hn; cbn; auto. }
  apply Happ; auto.
  - apply FinFun.Injective_map_NoDup; auto. intros x y [= ->]; auto.
  - intros [x y] Hx Hy. apply in_map_iff in Hx. destruct Hx as (b & [= <- <-] & _). apply in_prod_iff in Hy. tauto.
Qed.
Lemma lsum_pairs {A B} (l : list A) (l' : list B) (f : A * B -> R) :
  lsum (list_prod l l') f = lsum l (fun a => lsum l' (fun b => f (a, b))).
Proof. rewrite <- lsum_prod. apply lsum_ext. intros [a b] _. reflexivity. Qed.

(** ** Entries of the parameters *)
Lemma in_entries3 f a b c x : In x (entries3 f a b c) <-> exists i j k, (i < a)%nat /\ (j < b)%nat /\ (k < c)%nat /\ x = f i j k.
Proof.
  unfold entries3. split.
  - intros H. apply in_flat_map in H. destruct H as (i & Hi & H). apply in_flat_map in H. destruct H as (j & Hj & H).
    apply in_map_iff in H. destruct H as (k & <- & Hk). apply in_seq in Hi, Hj, Hk. exists i, j, k. repeat split; lia.
  - intros (i & j & k & Hi & Hj & Hk & ->). apply in_flat_map. exists i. split; [apply in_seq; lia|]. apply in_flat_map. exists j.
    split; [apply in_seq; lia|]. apply in_map, in_seq. lia.
Qed.
Lemma NoDup_entries3 f a b c : (forall i j k i' j' k', f i j k = f i' j' k' -> i = i' /\ j = j' /\ k = k') -> NoDup (entries3 f a b c).
Proof.
  intros Hf. unfold entries3. apply NoDup_flat_map; [apply seq_NoDup| |].
  - intros i _. apply NoDup_flat_map; [apply seq_NoDup| |].
    + intros j _. apply FinFun.Injective_map_NoDup; [|apply seq_NoDup]. intros k k' H. apply Hf in H. tauto.
    + intros j j' x _ _ H H'. apply in_map_iff in H, H'. destruct H as (k & <- & _), H' as (k' & H' & _). apply Hf in H'. symmetry; tauto.
  - intros i i' x _ _ H H'. apply in_flat_map in H, H'. destruct H as (j & _ & H), H' as (j' & _ & H').
    apply in_map_iff in H, H'. destruct H as (k & <- & _), H' as (k' & H' & _). apply Hf in H'. symmetry; tauto.
Qed.
Lemma in_outs H x : In x (out_params H) <-> exists r o, (r < hd_val H * hd_heads H)%nat /\ (o < hd_out H)%nat /\ x = AO r o.
Proof.
  unfold out_params. split.
  - intros K. apply in_flat_map in K. destruct K as (r & Hr & K). apply in_map_iff in K. destruct K as (o & <- & Ho). apply in_seq in Hr, Ho. exists r, o. repeat split; lia.
  - intros (r & o & Hr & Ho & ->). apply in_flat_map. exists r. split; [apply in_seq; lia|]. apply in_map, in_seq. lia.
Qed.
Lemma NoDup_outs H : NoDup (out_params H).
Proof.
  unfold out_params. apply NoDup_flat_map; [apply seq_NoDup| |].
  - intros r _. apply FinFun.Injective_map_NoDup; [|apply seq_NoDup]. intros o o' [= ->]; auto.
  - intros r r' x _ _ K K'. apply in_map_iff in K, K'. destruct K as (o & <- & _), K' as (o' & [= ->] & _). auto.
Qed.
Lemma in_bias L H x : In x (bias_params L H) -> exists o, x = AB o.
Proof. unfold bias_params. destruct (at_b_std L); [|intros []]. intros K. apply in_map_iff in K. destruct K as (o & <- & _). eauto. Qed.
Lemma NoDup_bias L H : NoDup (bias_params L H).
Proof.
  unfold bias_params. destruct (at_b_std L); [|constructor]. apply FinFun.Injective_map_NoDup; [|apply seq_NoDup]. intros o o' [= ->]; auto.
Qed.

(** The kinds of the layer's own parameters. *)
Definition value_kinds (L : attention) (H : heads) (C : nat) : list (list aparam) := [val_params L H C; out_params H].
Definition all_kinds (L : attention) (H : heads) (C : nat) : list (list aparam) := query_params L H C :: key_params L H C :: value_kinds L H C.

Lemma apart_values L H C : apart (value_kinds L H C ++ [bias_params L H]).
Proof.
  cbn [value_kinds app apart]. split; [apply NoDup_entries3; intros * [= ]; auto|]. split.
  - intros k [<-|[<-|[]]] a Ha Hb; apply in_entries3 in Ha; destruct Ha as (? & ? & ? & _ & _ & _ & ->).
    + apply in_outs in Hb. destruct Hb as (? & ? & _ & _ & [=]).
    + apply in_bias in Hb. destruct Hb as (? & [=]).
  - split; [apply NoDup_outs|]. split; [|repeat split; [apply NoDup_bias|intros ? []]].
    intros k [<-|[]] a Ha Hb. apply in_outs in Ha. destruct Ha as (? & ? & _ & _ & ->). apply in_bias in Hb. destruct Hb as (? & [=]).
Qed.
Lemma apart_all L H C : at_linear_scaling L = false -> apart (all_kinds L H C ++ [bias_params L H]).
Proof.
  intros HL. unfold all_kinds, query_params. rewrite HL. cbn [app]. split; [apply NoDup_entries3; intros * [= ]; auto|]. split.
  - intros k [<-|Hk] a Ha Hb; apply in_entries3 in Ha; destruct Ha as (? & ? & ? & _ & _ & _ & ->).
    + apply in_entries3 in Hb. destruct Hb as (? & ? & ? & _ & _ & _ & [=]).
    + destruct Hk as [<-|[<-|[<-|[]]]]; [apply in_entries3 in Hb; destruct Hb as (? & ? & ? & _ & _ & _ & [=])|apply in_outs in Hb; destruct Hb as (? & ? & _ & _ & [=])|apply in_bias in Hb; destruct Hb as (? & [=])].
  - split; [apply NoDup_entries3; intros * [= ]; auto|]. split; [|apply apart_values].
    intros k Hk a Ha Hb; apply in_entries3 in Ha; destruct Ha as (? & ? & ? & _ & _ & _ & ->).
    destruct Hk as [<-|[<-|[<-|[]]]]; [apply in_entries3 in Hb; destruct Hb as (? & ? & ? & _ & _ & _ & [=])|apply in_outs in Hb; destruct Hb as (? & ? & _ & _ & [=])|apply in_bias in Hb; destruct Hb as (? & [=])].
Qed.

(** ** Outputs *)
Section Out.
  Variables (L : attention) (H : heads) (sp : list nat) (C : nat).
  Let nh := hd_heads H. Let nk := hd_key H. Let nv := hd_val H. Let cv := val_channels L C. Let ck := key_channels L C.
  Hypothesis Hnh : (0 < nh)%nat.

  Definition beta_of : R := match at_b_std L with None => 0 | Some b => b end.
  Definition val_index : list (nat * (nat * nat)) := list_prod (seq 0 nh) (list_prod (seq 0 nv) (seq 0 cv)).
  Definition val_monomial (o : nat) (j : nat * (nat * nat)) : list aparam :=
    let '(h, (v, c)) := j in [AV h c v; AO (v * nh + h) o].
  Definition out_norm : R := OV_std L / sqrt (INR (nv * nh * cv)).
  Definition val_coef (A : nat -> loc -> loc -> R) (xv : act) (i : nat) (p : loc) (j : nat * (nat * nat)) : R :=
    let '(h, (v, c)) := j in out_norm * lsum (locs sp) (fun u => A h p u * xv i u c).

  Lemma attend_poly P A xv i p o :
    attend L H sp C P A xv i p o = poly val_index P (val_coef (A i) xv i p) (val_monomial o) beta_of (AB o).
  Proof.
    unfold attend, poly. apply f_equal2; [|unfold beta_of; destruct (at_b_std L); ring].
    unfold val_index. rewrite lsum_pairs.
    rewrite (lsum_ext (seq 0 nh) _ (fun h => lsum (seq 0 nv) (fun v => lsum (seq 0 cv) (fun c => val_coef (A i) xv i p (h, (v, c)) * mono P (val_monomial o (h, (v, c))))))) by (intros; apply lsum_pairs).
    rewrite lsum_swap. rewrite Nat.mul_comm.
    rewrite (lsum_ext (seq 0 (hd_heads H * hd_val H)) _ (fun r => (fun v h => lsum (locs sp) (fun u => A i h p u * inputs_dot (val_channels L C) (fun h c v => P (AV h c v)) xv i h u v) * P (AO (v * nh + h) o)) (r / nh)%nat (r mod nh)%nat)).
    2: { intros r _. cbv beta. assert ((r / nh) * nh + r mod nh = r)%nat as -> by (rewrite (Nat.div_mod r nh) at 3 by lia; lia). reflexivity. }
    fold nh. rewrite (lsum_blocks (hd_val H) nh (fun v h => lsum (locs sp) (fun u => A i h p u * inputs_dot (val_channels L C) (fun h c v => P (AV h c v)) xv i h u v) * P (AO (v * nh + h) o)) Hnh).
    fold nv. rewrite <- lsum_scale_r. apply lsum_ext. intros v _. rewrite <- lsum_scale_r. apply lsum_ext. intros h _.
    fold cv. unfold inputs_dot. rewrite (Nat.mul_comm nh nv). fold out_norm.
    rewrite (lsum_ext (locs sp) _ (fun u => lsum (seq 0 cv) (fun c => A i h p u * xv i u c * P (AV h c v)))) by (intros; rewrite <- lsum_scale; apply lsum_ext; intros; ring).
    rewrite lsum_swap, <- !lsum_scale_r. apply lsum_ext. intros c _. cbn [val_coef val_monomial]. rewrite <- !lsum_scale_r, <- lsum_scale, <- lsum_scale_r.
    apply lsum_ext. intros u _. unfold mono, product. cbn. ring.
  Qed.

  Lemma val_index_in j : In j val_index <-> (let '(h, (v, c)) := j in (h < nh)%nat /\ (v < nv)%nat /\ (c < cv)%nat).
  Proof. destruct j as (h & v & c). unfold val_index. rewrite !in_prod_iff, !in_seq. lia. Qed.
  Lemma val_index_nodup : NoDup val_index.
  Proof. unfold val_index. repeat apply NoDup_prod; apply seq_NoDup. Qed.
  Lemma out_row h v : (h < nh)%nat -> (v < nv)%nat -> (v * nh + h < nv * nh)%nat.
  Proof. intros. assert (S v * nh <= nv * nh)%nat by (apply Nat.mul_le_mono_r; lia). lia. Qed.
  Lemma val_one_each o j : (o < hd_out H)%nat -> In j val_index -> one_each (value_kinds L H C) (val_monomial o j).
  Proof.
    intros Ho Hj. apply val_index_in in Hj. destruct j as (h & v & c). destruct Hj as (H1 & H2 & H3). repeat constructor.
    - apply in_entries3. exists h, c, v. auto.
    - apply in_outs. exists (v * nh + h)%nat, o. split; [|auto]. apply out_row; auto.
  Qed.
  Lemma bias_in o o' : (o < hd_out H)%nat -> (o' < hd_out H)%nat -> beta_of <> 0 -> In (AB o) (bias_params L H) /\ In (AB o') (bias_params L H).
  Proof.
    unfold beta_of, bias_params. intros Ho Ho' Hb. destruct (at_b_std L); [|lra]. split; apply in_map, in_seq; lia.
  Qed.
  Lemma beta_sq : beta_of ^ 2 = bias2 L.
  Proof. unfold beta_of, bias2. destruct (at_b_std L); ring. Qed.
  Lemma kron_AB o o' : kron (AB o) (AB o') = if (o =? o')%nat then 1 else 0.
  Proof. destruct (Nat.eqb_spec o o') as [->|Hn]; [apply kron_refl|apply kron_ne; congruence]. Qed.

  (** Matching terms agree. *)
  Lemma matching_diag {Omega J} (E : (Omega -> R) -> R) (js : list J) a a' (ms : nat -> J -> list aparam) o o' :
    NoDup js -> (forall j j' o o', In j js -> In j' js -> ms o j = ms o' j' -> j = j' /\ o = o') ->
    matching E js a a' (ms o) (ms o') = if (o =? o')%nat then lsum js (fun j => E (fun w => a w j * a' w j)) else 0.
  Proof.
    intros Hn Hi. unfold matching. destruct (Nat.eqb_spec o o') as [->|Ho].
    - rewrite lsum_diag; auto.
      + apply lsum_ext. intros j _. unfold same. destruct (list_eq_dec aparam_eq_dec (ms o' j) (ms o' j)); [ring|congruence].
      + intros j j' Hj Hj' Hne. unfold same. destruct (list_eq_dec aparam_eq_dec (ms o' j) (ms o' j')) as [e|_]; [|ring].
        destruct (Hi j j' o' o' Hj Hj' e). congruence.
    - apply lsum_zero. intros j Hj. apply lsum_zero. intros j' Hj'. unfold same.
      destruct (list_eq_dec aparam_eq_dec (ms o j) (ms o' j')) as [e|_]; [|ring]. destruct (Hi j j' o o' Hj Hj' e). congruence.
  Qed.
  Lemma val_inj j j' o o' : In j val_index -> In j' val_index -> val_monomial o j = val_monomial o' j' -> j = j' /\ o = o'.
  Proof.
    destruct j as (h & v & c), j' as (h' & v' & c'). cbn. intros _ _ [= -> -> -> _ ->]. auto.
  Qed.
End Out.

(** Coefficients that are not random. *)
Lemma independent_scale {Omega} (E : (Omega -> R) -> R) kinds z X Y (c : R) : expectation E ->
  (forall w, Y w = c * X w) -> independent_kinds E kinds z X -> independent_kinds E kinds z Y.
Proof.
  intros HE HY HX sel F. rewrite (E_ext E HE Y (fun w => c * X w)) by auto.
  rewrite (E_ext E HE _ (fun w => c * (product (map (fun s => product (map (z w) s)) sel) * X w))) by (intros; rewrite HY; ring).
  rewrite !(E_scale E HE), HX by auto. ring.
Qed.
Lemma independent_plus {Omega} (E : (Omega -> R) -> R) kinds z X Y : expectation E ->
  independent_kinds E kinds z X -> independent_kinds E kinds z Y -> independent_kinds E kinds z (fun w => X w + Y w).
Proof.
  intros HE HX HY sel F. rewrite (E_plus E HE X).
  rewrite (E_ext E HE _ (fun w => product (map (fun s => product (map (z w) s)) sel) * X w + product (map (fun s => product (map (z w) s)) sel) * Y w)) by (intros; ring).
  rewrite (E_plus E HE), HX, HY by auto. ring.
Qed.
Lemma independent_zero {Omega} (E : (Omega -> R) -> R) kinds z : expectation E -> independent_kinds E kinds z (fun _ => 0).
Proof.
  intros HE sel F. rewrite (E_null E HE (fun _ => 0)) by auto. rewrite (E_null E HE) by (intros; ring). ring.
Qed.
Lemma independent_lsum {Omega A} (E : (Omega -> R) -> R) kinds z (l : list A) (X : A -> Omega -> R) : expectation E ->
  (forall a, In a l -> independent_kinds E kinds z (X a)) -> independent_kinds E kinds z (fun w => lsum l (fun a => X a w)).
Proof.
  intros HE. induction l as [|a l IH]; intros HX; cbn; [apply independent_zero; auto|].
  apply (independent_plus E kinds z (X a)); auto; [apply HX; cbn; auto|]. apply IH. intros; apply HX; cbn; auto.
Qed.
