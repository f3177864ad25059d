From Coq Require Import List Arith Lia Bool.
From Verif Require Import Base Model_Geom Spec_Geom.
Import ListNotations.

Lemma loc_eqb_spec p q : reflect (p = q) (loc_eqb p q).
Proof. unfold loc_eqb; destruct (loc_eq_dec p q); constructor; auto. Qed.

Lemma loc_eqb_refl p : loc_eqb p p = true.
Proof. destruct (loc_eqb_spec p p); congruence. Qed.

Lemma loc_eqb_neq p q : p <> q -> loc_eqb p q = false.
Proof. destruct (loc_eqb_spec p q); congruence. Qed.

Lemma in_locs sh p : In p (locs sh) <-> in_shape sh p.
Proof.
  unfold in_shape; revert p; induction sh as [|n sh IH]; intros p; simpl.
  - split; [intros [<-|[]]; constructor|]. intros H; inversion H; auto.
  - rewrite in_flat_map; split.
    + intros (i & Hi & Hp). apply in_seq in Hi. apply in_map_iff in Hp as (q & <- & Hq).
      constructor; [lia|]. apply IH; auto.
    + intros H; inversion H; subst. exists x; split; [apply in_seq; lia|].
      apply in_map; apply IH; auto.
Qed.

Lemma NoDup_flat_map_cons {A} (l : list nat) (f : nat -> list (list A)) (g : nat -> A) :
  NoDup l -> (forall i j, g i = g j -> i = j) -> (forall i, NoDup (f i)) ->
  NoDup (flat_map (fun i => map (cons (g i)) (f i)) l).
Proof.
  intros Hl Hg Hf; induction Hl as [|i l Hi Hl IH]; simpl; [constructor|].
  induction (Hf i) as [|a m Ha Hm IHm]; simpl; [exact IH|].
  constructor; [|exact IHm].
  rewrite in_app_iff, in_map_iff, in_flat_map.
  intros [(x & E & Hx)|(j & Hj & Hx)].
  - inversion E; subst; auto.
  - apply in_map_iff in Hx as (y & E & Hy). inversion E.
    apply Hg in H0; subst; auto.
Qed.

Lemma NoDup_locs sh : NoDup (locs sh).
Proof.
  induction sh as [|n sh IH]; simpl; [constructor; [intros []|constructor]|].
  apply (NoDup_flat_map_cons (seq 0 n) (fun _ => locs sh) (fun i => i)); auto.
  apply seq_NoDup.
Qed.

Lemma length_locs sh : length (locs sh) = vol sh.
Proof.
  induction sh as [|n sh IH]; simpl; [reflexivity|].
  fold (vol sh); rewrite <- IH.
  assert (forall s, length (flat_map (fun i => map (cons i) (locs sh)) (seq s n)) = n * length (locs sh)) as H.
  { induction n as [|n IHn]; intros s; simpl; [reflexivity|].
    rewrite app_length, map_length, IHn; reflexivity. }
  apply H.
Qed.

Lemma locs_nil : locs [] = [[]].
Proof. reflexivity. Qed.

Lemma in_shape_length sh p : in_shape sh p -> length p = length sh.
Proof. apply Forall2_length. Qed.

(** One axis. *)
Lemma same_pad_lt n f s : 0 < n -> 0 < f -> 0 < s -> ((n + s - 1) / s - 1) * s + f - n < f.
Proof.
  intros Hn Hf Hs.
  assert (((n + s - 1) / s - 1) * s < n); [|lia].
  pose proof (Nat.mul_div_le (n + s - 1) s ltac:(lia)) as H.
  assert (1 <= (n + s - 1) / s) as H1.
  { apply Nat.div_le_lower_bound; lia. }
  rewrite Nat.mul_sub_distr_r, (Nat.mul_comm _ s); lia.
Qed.

Lemma pad_lo_lt n f s : 0 < n -> 0 < f -> 0 < s -> pad_lo n f s < f.
Proof.
  intros Hn Hf Hs; unfold pad_lo. pose proof (same_pad_lt n f s Hn Hf Hs).
  apply Nat.div_lt_upper_bound; lia.
Qed.

Lemma spread_lt n s d j : spread n s d = Some j -> j < n.
Proof.
  unfold spread. destruct (d mod s =? 0); [|discriminate]. destruct (Nat.ltb_spec (d / s) n); [|discriminate].
  intros E; injection E as <-; auto.
Qed.
Lemma spread_inj n s d d' j : 0 < s -> spread n s d = Some j -> spread n s d' = Some j -> d = d'.
Proof.
  unfold spread. intros Hs. destruct (Nat.eqb_spec (d mod s) 0) as [M|]; [|discriminate]. destruct (d / s <? n); [|discriminate].
  destruct (Nat.eqb_spec (d' mod s) 0) as [M'|]; [|discriminate]. destruct (d' / s <? n); [|discriminate].
  intros E E'; injection E as <-; injection E' as E'.
  rewrite (Nat.div_mod d s), (Nat.div_mod d' s) by lia. rewrite M, M', E'. reflexivity.
Qed.
Lemma mod_inj a n k k' : 0 < n -> k < n -> k' < n -> (a + k) mod n = (a + k') mod n -> k = k'.
Proof.
  intros Hn Hk Hk' E'.
  pose proof (Nat.div_mod (a + k) n ltac:(lia)).
  pose proof (Nat.div_mod (a + k') n ltac:(lia)).
  rewrite E' in H.
  destruct (Nat.lt_trichotomy ((a + k) / n) ((a + k') / n)) as [C|[C|C]]; [|rewrite C in H; lia|].
  + assert (n * S ((a + k) / n) <= n * ((a + k') / n)) by (apply Nat.mul_le_mono_l; lia). lia.
  + assert (n * S ((a + k') / n) <= n * ((a + k) / n)) by (apply Nat.mul_le_mono_l; lia). lia.
Qed.

Lemma axis_at_lt pad n f s p k j :
  0 < n -> 0 < f -> 0 < s -> p < axis_out pad n f s -> k < f ->
  axis_at pad n f s p k = Some j -> j < n.
Proof.
  intros Hn Hf Hs Hp Hk; destruct pad as [[]|[]]; cbn [axis_at axis_out] in *;
    [| | |destruct (_ <? _); [discriminate|]; apply spread_lt|destruct (_ <? _); [discriminate|]; apply spread_lt|apply spread_lt].
  - intros E; injection E as <-.
    destruct (Nat.ltb_spec n f); [lia|].
    assert (p <= (n - f) / s) by lia.
    pose proof (Nat.mul_div_le (n - f) s ltac:(lia)).
    assert (p * s <= (n - f) / s * s) by (apply Nat.mul_le_mono_r; lia).
    rewrite (Nat.mul_comm _ s) in H2. lia.
  - destruct (_ <? _); [discriminate|].
    destruct (Nat.ltb_spec (p * s + k - pad_lo n f s) n); [|discriminate].
    intros E; injection E as <-; auto.
  - intros E; injection E as <-. apply Nat.mod_upper_bound; lia.
Qed.

Lemma axis_at_inj pad n f s p k k' j :
  0 < n -> 0 < f -> 0 < s -> (padding_of pad = CIRCULAR -> f <= n) -> k < f -> k' < f ->
  axis_at pad n f s p k = Some j -> axis_at pad n f s p k' = Some j -> k = k'.
Proof.
  intros Hn Hf Hs Hw Hk Hk'; destruct pad as [[]|[]]; cbn [axis_at].
  - intros E E'; injection E as <-; injection E' as E'; lia.
  - destruct (Nat.ltb_spec (p * s + k) (pad_lo n f s)); [discriminate|].
    destruct (_ <? n); [|discriminate].
    destruct (Nat.ltb_spec (p * s + k') (pad_lo n f s)); [discriminate|].
    destruct (_ <? n); [|discriminate].
    intros E E'; injection E as <-; injection E' as E'; lia.
  - intros E E'; injection E as <-; injection E' as E'.
    specialize (Hw eq_refl).
    set (lo := pad_lo n f s) in *.
    assert (lo <= lo * n) by nia.
    apply (mod_inj (p * s + lo * n - lo) n); try lia.
    replace (p * s + lo * n - lo + k) with (p * s + k + lo * n - lo) by lia.
    replace (p * s + lo * n - lo + k') with (p * s + k' + lo * n - lo) by lia. auto.
  - destruct (Nat.ltb_spec (p + k) (f - 1)); [discriminate|]. destruct (Nat.ltb_spec (p + k') (f - 1)); [discriminate|].
    intros E E'. pose proof (spread_inj n s _ _ j Hs E E'). lia.
  - destruct (Nat.ltb_spec (p + k) (transpose_pad f s)); [discriminate|]. destruct (Nat.ltb_spec (p + k') (transpose_pad f s)); [discriminate|].
    intros E E'. pose proof (spread_inj n s _ _ j Hs E E'). lia.
  - intros E E'. pose proof (spread_inj n s _ _ j Hs E E') as E2. specialize (Hw eq_refl).
    set (lo := transpose_pad f s) in *. assert (n <= n * s) by nia.
    assert (lo <= lo * (n * s)) by nia.
    apply (mod_inj (p + lo * (n * s) - lo) (n * s)); try lia.
    replace (p + lo * (n * s) - lo + k) with (p + k + lo * (n * s) - lo) by lia.
    replace (p + lo * (n * s) - lo + k') with (p + k' + lo * (n * s) - lo) by lia. auto.
Qed.

Lemma loc_at_in pad sh fs ss p k q :
  length fs = length sh -> length ss = length sh ->
  Forall (fun f => 0 < f) fs -> Forall (fun s => 0 < s) ss -> Forall (fun n => 0 < n) sh ->
  in_shape (out_shape pad sh fs ss) p -> in_shape fs k ->
  loc_at pad sh fs ss p k = Some q -> in_shape sh q.
Proof.
  unfold in_shape; revert fs ss p k q; induction sh as [|n sh IH]; intros [|f fs] [|s ss] p k q;
    simpl; try lia; intros L1 L2 P1 P2 P3 Hp Hk.
  - intros E; injection E as <-; constructor.
  - inversion Hp; inversion Hk; inversion P1; inversion P2; inversion P3; subst.
    destruct (axis_at pad n f s x x0) as [j|] eqn:Ej; [|discriminate].
    destruct (loc_at pad sh fs ss l l0) as [js|] eqn:Ejs; [|discriminate].
    intros E; injection E as <-. constructor.
    + apply (axis_at_lt pad n f s x x0 j); auto.
    + apply (IH fs ss l l0); auto; lia.
Qed.

Lemma loc_at_inj pad sh fs ss p k k' q :
  length fs = length sh -> length ss = length sh ->
  Forall (fun f => 0 < f) fs -> Forall (fun s => 0 < s) ss -> Forall (fun n => 0 < n) sh ->
  (padding_of pad = CIRCULAR -> Forall2 le fs sh) ->
  in_shape (out_shape pad sh fs ss) p -> in_shape fs k -> in_shape fs k' ->
  loc_at pad sh fs ss p k = Some q -> loc_at pad sh fs ss p k' = Some q -> k = k'.
Proof.
  unfold in_shape; revert fs ss p k k' q; induction sh as [|n sh IH]; intros [|f fs] [|s ss] p k k' q;
    simpl; try lia; intros L1 L2 P1 P2 P3 Hw Hp Hk Hk'.
  - inversion Hk; inversion Hk'; auto.
  - inversion Hp; inversion Hk; inversion Hk'; inversion P1; inversion P2; inversion P3; subst.
    destruct (axis_at pad n f s x x0) as [j|] eqn:Ej; [|discriminate].
    destruct (loc_at pad sh fs ss l l0) as [js|] eqn:Ejs; [|discriminate].
    intros E; injection E as <-.
    destruct (axis_at pad n f s x x1) as [j'|] eqn:Ej'; [|discriminate].
    destruct (loc_at pad sh fs ss l l1) as [js'|] eqn:Ejs'; [|discriminate].
    intros E; injection E as -> ->.
    f_equal.
    + apply (axis_at_inj pad n f s x x0 x1 j); auto.
      intros Ec; specialize (Hw Ec); inversion Hw; auto.
    + apply (IH fs ss l l0 l1 js); auto.
      intros Ec; specialize (Hw Ec); inversion Hw; auto.
Qed.

Lemma geom_at_in g sh p k q :
  geom_fits g sh -> in_shape (geom_out g sh) p -> In k (taps g) ->
  geom_at g sh p k = Some q -> in_shape sh q.
Proof.
  intros (L1 & L2 & P1 & P2 & P3) Hp Hk. apply in_locs in Hk.
  apply loc_at_in; auto.
Qed.

Lemma geom_at_inj g sh p k k' q :
  geom_fits g sh -> geom_no_wrap g sh -> in_shape (geom_out g sh) p ->
  In k (taps g) -> In k' (taps g) ->
  geom_at g sh p k = Some q -> geom_at g sh p k' = Some q -> k = k'.
Proof.
  intros (L1 & L2 & P1 & P2 & P3) Hw Hp Hk Hk'. apply in_locs in Hk, Hk'.
  apply loc_at_inj; auto.
Qed.

Lemma geom_out_length g sh : geom_fits g sh -> length (geom_out g sh) = length sh.
Proof.
  intros (L1 & L2 & _); unfold geom_out; revert L1 L2.
  generalize (g_filter g) (g_strides g); induction sh as [|n sh IH]; intros [|f fs] [|s ss]; simpl; try lia.
  intros; rewrite IH; lia.
Qed.

Lemma geom_out_nil g : geom_out g [] = [].
Proof. reflexivity. Qed.

Lemma in_fibre_self over sh p : in_shape sh p -> In p (fibre over sh p).
Proof.
  unfold in_shape; intros H; revert over; induction H as [|i n p sh Hi H IH]; intros [|o over]; simpl; auto.
  apply in_flat_map; exists i; split; [destruct o; simpl; auto; apply in_seq; lia|].
  apply in_map; auto.
Qed.

Lemma in_fibre over sh p q : in_shape sh p -> In q (fibre over sh p) -> in_shape sh q.
Proof.
  unfold in_shape; intros H; revert over q; induction H as [|i n p sh Hi H IH]; intros [|o over] q; simpl.
  - intros [<-|[]]; constructor.
  - intros [<-|[]]; constructor.
  - intros [<-|[]]; constructor; auto.
  - intros Hq; apply in_flat_map in Hq as (j & Hj & Hq). apply in_map_iff in Hq as (r & <- & Hr).
    constructor; [|eapply IH; eauto].
    destruct o; [apply in_seq in Hj; lia|]. destruct Hj as [<-|[]]; auto.
Qed.
