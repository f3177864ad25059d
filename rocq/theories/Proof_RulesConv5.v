(** The Jacobian rule of convolutions. *)
From Coq Require Import Reals ZArith List Arith Lia Lra Bool Permutation.
From Verif Require Import Base Tensor Reshape Model_Net Model_Predict Model_Empirical Model_Structure Model_Aggregate Model_Structured Model_Lax Model_Rules
  Spec_Structure Spec_Structured Spec_Rules Proof_Linalg Proof_Tsum Proof_Einsum Proof_Structure Proof_Structured Proof_Structured2 Proof_Structured3 Proof_Structured4 Proof_Rules Proof_Rules2 Proof_Rules3 Proof_Rules4 Proof_Rules5 Proof_Rules9 Proof_Rules10 Proof_Rules11 Proof_Axes Proof_Move Proof_RulesConv Proof_RulesConv2 Proof_RulesConv3 Proof_RulesConv4.
From Verif Require Proof_MonteCarlo Spec_MonteCarlo.
Import ListNotations.
Local Open Scope R_scope.

Lemma increasing_app l1 l2 : Spec_MonteCarlo.strictly_increasing l1 -> Spec_MonteCarlo.strictly_increasing l2 -> (forall x y, In x l1 -> In y l2 -> (x < y)%nat) -> Spec_MonteCarlo.strictly_increasing (l1 ++ l2).
Proof.
  intros H1 H2 H. induction H1 as [|x l H1 IH Hx]; auto. cbn. constructor; [apply IH; intros; apply H; auto; now right|]. apply Forall_app. split; auto. apply Forall_forall. intros y Hy. apply H; auto. now left.
Qed.

Section Paths.
  Variables (c : conv) (n : nat).
  Hypothesis (Hn : (2 <= n)%nat) (Hr : spec n (c_rhs c)) (Ho : spec n (c_out c)).
  Notation SP := (filter_axes c).
  Notation r0 := (nth 0 (c_rhs c) 0%nat).
  Notation r1 := (nth 1 (c_rhs c) 0%nat).
  Notation p0 := (nth 0 (c_out c) 0%nat).
  Notation p1 := (nth 1 (c_out c) 0%nat).
  Definition phi (kk : list nat) : list nat := spec_read SP (spec_layout (c_rhs c) (0 :: 0 :: kk)%nat).
  Definition rest1 (b : nat) (yy : list nat) : list nat := spec_read (kept [p1] n) (spec_layout (c_out c) (b :: 0 :: yy)%nat).
  Definition rest2 (yy : list nat) : list nat := spec_read (kept [p0; p1] n) (spec_layout (c_out c) (0 :: 0 :: yy)%nat).

  Lemma bounds : (p0 < n /\ p1 < n /\ r0 < n /\ r1 < n /\ p0 <> p1)%nat.
  Proof.
    pose proof Ho as (L & N & _). split; [apply (spec_nth n (c_out c)); auto; lia|]. split; [apply (spec_nth n (c_out c)); auto; lia|]. split; [apply (spec_nth n (c_rhs c)); auto; lia|]. split; [apply (spec_nth n (c_rhs c)); auto; lia|].
    intros E. apply NoDup_nth in E; auto; lia.
  Qed.
  Lemma layout_other sp v v' a : spec n sp -> (a < n)%nat -> (forall k, (k < n)%nat -> a <> nth k sp 0%nat \/ nth k v 0%nat = nth k v' 0%nat) -> nth a (spec_layout sp v) 0%nat = nth a (spec_layout sp v') 0%nat.
  Proof.
    intros Hs Ha H. pose proof Hs as (L & _). rewrite !layout_nth by lia. destruct (spec_index n sp Hs a Ha) as [H1 H2]. destruct (H _ H1) as [Q|Q]; auto. congruence.
  Qed.
  Lemma phi_eq o i kk : spec_read SP (spec_layout (c_rhs c) (o :: i :: kk)) = phi kk.
  Proof.
    apply map_ext_in. intros a Ha. apply layout_other; auto. { eapply sp_lt; eauto. }
    intros k Hk. apply (sp_in c n Hn Hr) in Ha. destruct (rhs_nodup c n Hn Hr Ho) as (N1 & N2 & _). destruct k as [|[|k]]; [left|left|right; reflexivity].
    - intros ->. apply N1. now right.
    - now intros ->.
  Qed.
  Lemma rest1_eq b f yy : spec_read (kept [p1] n) (spec_layout (c_out c) (b :: f :: yy)) = rest1 b yy.
  Proof.
    apply map_ext_in. intros a Ha. apply kept_In in Ha. destruct Ha as [Ha Na]. apply layout_other; auto. intros [|[|k]] Hk; auto. left. intros ->. apply Na. now left.
  Qed.
  Lemma rest2_eq b f yy : spec_read (kept [p0; p1] n) (spec_layout (c_out c) (b :: f :: yy)) = rest2 yy.
  Proof.
    apply map_ext_in. intros a Ha. apply kept_In in Ha. destruct Ha as [Ha Na]. apply layout_other; auto. intros [|[|k]] Hk; auto; left; intros ->; apply Na; [now left|right; now left].
  Qed.
  Lemma phi_len kk : length (phi kk) = (n - 2)%nat.
  Proof. unfold phi. rewrite read_length. now apply sp_length. Qed.
  Lemma rest1_len b yy : length (rest1 b yy) = (n - 1)%nat.
  Proof.
    destruct bounds as (B0 & B1 & _). unfold rest1. rewrite read_length. pose proof (kept_length [p1] n) as H. cbn [length] in H. rewrite <- H at 2; [lia|repeat constructor; easy|]. intros a [<-|[]]. lia.
  Qed.
  Lemma rest2_len yy : length (rest2 yy) = (n - 2)%nat.
  Proof.
    destruct bounds as (B0 & B1 & _ & _ & N). unfold rest2. rewrite read_length. pose proof (kept_length [p0; p1] n) as H. cbn [length] in H. rewrite <- H at 2; [lia| |].
    - constructor; [|repeat constructor; easy]. intros [E|[]]. congruence.
    - intros a [<-|[<-|[]]]; lia.
  Qed.
  Lemma phi_range F kk : length F = (n - 2)%nat -> in_range F kk -> in_range (phi F) (phi kk).
  Proof.
    intros L H. rewrite <- (phi_eq 1 1 F). apply read_range.
    - intros x Hx. rewrite layout_length. pose proof Hr as (-> & _). eapply sp_lt; eauto.
    - apply (range_layout n); auto; [cbn; lia|]. constructor; [lia|]. constructor; [lia|auto].
  Qed.
  Lemma rest1_range N Xo b yy : length Xo = (n - 2)%nat -> (b < N)%nat -> in_range Xo yy -> in_range (rest1 N Xo) (rest1 b yy).
  Proof.
    intros L Hb H. rewrite <- (rest1_eq N 1 Xo). apply read_range.
    - intros x Hx. rewrite layout_length. pose proof Ho as (-> & _). apply kept_In in Hx. tauto.
    - apply (range_layout n); auto; [cbn; lia|]. constructor; [lia|]. constructor; [lia|auto].
  Qed.
  Lemma rest2_range Xo yy : length Xo = (n - 2)%nat -> in_range Xo yy -> in_range (rest2 Xo) (rest2 yy).
  Proof.
    intros L H. rewrite <- (rest2_eq 1 1 Xo). apply read_range.
    - intros x Hx. rewrite layout_length. pose proof Ho as (-> & _). apply kept_In in Hx. tauto.
    - apply (range_layout n); auto; [cbn; lia|]. constructor; [lia|]. constructor; [lia|auto].
  Qed.
  Lemma lay_len sp v : spec n sp -> length (spec_layout sp v) = n.
  Proof. intros (L & _). now rewrite layout_length. Qed.
  Lemma out_at k v : (k < n)%nat -> nth (nth k (c_out c) 0%nat) (spec_layout (c_out c) v) 0%nat = nth k v 0%nat.
  Proof. intros. now apply (layout_at n). Qed.
  Lemma rhs_at k v : (k < n)%nat -> nth (nth k (c_rhs c) 0%nat) (spec_layout (c_rhs c) v) 0%nat = nth k v 0%nat.
  Proof. intros. now apply (layout_at n). Qed.
  Lemma shift_at v m a : nth (n + a) (spec_layout (c_out c) v ++ m) 0%nat = nth a m 0%nat.
  Proof. rewrite app_nth2 by (rewrite lay_len by auto; lia). rewrite lay_len by auto. f_equal. lia. Qed.
  Lemma left_at v m k : (k < n)%nat -> nth (nth k (c_out c) 0%nat) (spec_layout (c_out c) v ++ m) 0%nat = nth k v 0%nat.
  Proof. intros Hk. rewrite app_nth1; [now apply out_at|]. rewrite lay_len by auto. now apply (spec_nth n (c_out c)). Qed.

  (** ** Groups of features *)

  Lemma f_moved1 b f yy : moved n [p1] [n - 1]%nat (spec_layout (c_out c) (b :: f :: yy)) (rest1 b yy ++ [f]).
  Proof.
    pose proof (rest1_len b yy) as L. split; [now apply lay_len|]. split; [rewrite app_length; cbn; lia|]. split.
    - cbn [spec_read map]. rewrite nth_mid by auto. rewrite out_at by lia. reflexivity.
    - rewrite rest1_eq. replace n with (n - 1 + 1)%nat at 2 by lia. rewrite kept_prefix; [now apply read_prefix| |].
      + intros x Hx. left. lia.
      + intros x [<-|[]]. lia.
  Qed.
  Lemma f_moved3 b yy q i kk : moved (2 * n - 1) [n - 1; n]%nat [2 * n - 1 - 1; 2 * n - 1 - 2]%nat (rest1 b yy ++ q :: i :: phi kk) (rest1 b yy ++ phi kk ++ [i; q]).
  Proof.
    pose proof (rest1_len b yy) as L. pose proof (phi_len kk) as L'. split; [rewrite app_length; cbn; lia|]. split; [rewrite !app_length; cbn; lia|]. split.
    - assert (Q1 : nth (n - 1) (rest1 b yy ++ q :: i :: phi kk) 0%nat = q) by now apply nth_mid.
      assert (Q2 : nth n (rest1 b yy ++ q :: i :: phi kk) 0%nat = i). { replace (rest1 b yy ++ q :: i :: phi kk) with ((rest1 b yy ++ [q]) ++ i :: phi kk) by now rewrite <- app_assoc. apply nth_mid. rewrite app_length. cbn. lia. }
      assert (Q3 : nth (2 * n - 1 - 1) (rest1 b yy ++ phi kk ++ [i; q]) 0%nat = q). { replace (rest1 b yy ++ phi kk ++ [i; q]) with ((rest1 b yy ++ phi kk ++ [i]) ++ [q]) by now rewrite <- !app_assoc. apply nth_mid. rewrite !app_length. cbn. lia. }
      assert (Q4 : nth (2 * n - 1 - 2) (rest1 b yy ++ phi kk ++ [i; q]) 0%nat = i). { rewrite app_assoc. apply nth_mid. rewrite !app_length. lia. }
      unfold spec_read. cbn [map]. now rewrite Q1, Q2, Q3, Q4.
    - assert (K1 : kept [2 * n - 1 - 1; 2 * n - 1 - 2]%nat (2 * n - 1) = seq 0 (2 * n - 3)).
      { replace (2 * n - 1)%nat with (2 * n - 3 + 2)%nat at 3 by lia. apply kept_prefix.
        - intros x Hx. cbn [In]. lia.
        - intros x [<-|[<-|[]]]; lia. }
      assert (K2 : kept [n - 1; n]%nat (2 * n - 1) = seq 0 (n - 1) ++ seq (n + 1) (n - 2)).
      { apply Proof_MonteCarlo.sorted_unique; [apply Proof_MonteCarlo.filter_sorted, Proof_MonteCarlo.seq_sorted| |].
        - apply increasing_app; [apply Proof_MonteCarlo.seq_sorted|apply Proof_MonteCarlo.seq_sorted|]. intros x y Hx Hy. apply in_seq in Hx, Hy. lia.
        - intros a. rewrite kept_In, in_app_iff, !in_seq. cbn [In]. lia. }
      rewrite K1, K2, read_app. rewrite app_assoc. rewrite read_prefix by (rewrite app_length; lia). rewrite read_prefix by auto. f_equal.
      change (rest1 b yy ++ q :: i :: phi kk) with (rest1 b yy ++ ([q; i] ++ phi kk)). rewrite app_assoc. rewrite <- (app_nil_r (phi kk)) at 2. rewrite read_middle; auto. rewrite app_length. cbn. lia.
  Qed.
  Notation dst1 := (map (fun i => (n + i)%nat) SP ++ [n + r1; p1; n + r0]%nat).
  Notation dst2 := ((n + r1)%nat :: map (fun i => (n + i)%nat) SP ++ [p0; p1; n + r0]%nat).
  Lemma shift_in a : In a (map (fun i => (n + i)%nat) SP) <-> (n <= a)%nat /\ In (a - n)%nat (skipn 2 (c_rhs c)).
  Proof.
    rewrite in_map_iff. split.
    - intros (x & <- & H). split; [lia|]. replace (n + x - n)%nat with x by lia. now apply (sp_in c n Hn Hr).
    - intros [H1 H2]. exists (a - n)%nat. split; [lia|]. now apply (sp_in c n Hn Hr).
  Qed.
  Lemma rhs_cover a : (a < n)%nat -> a = r0 \/ a = r1 \/ In a (skipn 2 (c_rhs c)).
  Proof. intros Ha. pose proof Hr as (_ & _ & I). apply I in Ha. rewrite (spec_cons n Hn _ Hr) in Ha. cbn [In] in Ha. intuition. Qed.
  Lemma rhs_lt a : In a (skipn 2 (c_rhs c)) -> (a < n)%nat.
  Proof. intros H. pose proof Hr as (_ & _ & I). apply I. rewrite (spec_cons n Hn _ Hr). right. right. auto. Qed.
  Lemma dst1_ok : NoDup dst1 /\ (forall x, In x dst1 -> (x < 2 * n)%nat) /\ length dst1 = (n + 1)%nat /\ kept dst1 (2 * n) = kept [p1] n.
  Proof.
    destruct bounds as (B0 & B1 & B2 & B3 & N). destruct (rhs_nodup c n Hn Hr Ho) as (N1 & N2 & _). split; [|split; [|split]].
    - apply NoDup_app_intro.
      + apply FinFun.Injective_map_NoDup; [intros x z; lia|apply sp_nodup].
      + constructor; [intros [E|[E|[]]]; [lia|]|constructor; [intros [E|[]]; lia|repeat constructor; easy]]. apply N1. left. lia.
      + intros x Hx Hy. apply shift_in in Hx. destruct Hx as [H1 H2]. destruct Hy as [<-|[<-|[<-|[]]]]; [|lia|].
        * replace (n + r1 - n)%nat with r1 in H2 by lia. auto.
        * replace (n + r0 - n)%nat with r0 in H2 by lia. apply N1. now right.
    - intros x Hx. apply in_app_iff in Hx. rewrite shift_in in Hx. destruct Hx as [[H1 H2]|[E|[E|[E|[]]]]]; [apply rhs_lt in H2|..]; lia.
    - rewrite app_length, map_length, (sp_length c n Hn Hr Ho). cbn. lia.
    - apply Proof_MonteCarlo.sorted_unique; try (apply Proof_MonteCarlo.filter_sorted, Proof_MonteCarlo.seq_sorted). intros a. rewrite !kept_In, in_app_iff, shift_in. cbn [In]. split.
      + intros [H1 H2]. destruct (Nat.lt_ge_cases a n) as [Q|Q]; [split; [auto|intuition]|]. exfalso. apply H2. destruct (rhs_cover (a - n)) as [E|[E|E]]; [lia| | |left; auto]; right; [right; right; left; lia|left; lia].
      + intros [H1 H2]. split; [lia|]. intros [[H3 _]|[H3|[H3|[H3|[]]]]]; lia.
  Qed.
  Lemma dst2_ok : NoDup dst2 /\ (forall x, In x dst2 -> (x < 2 * n)%nat) /\ length dst2 = (n + 2)%nat /\ kept dst2 (2 * n) = kept [p0; p1] n.
  Proof.
    destruct bounds as (B0 & B1 & B2 & B3 & N). destruct (rhs_nodup c n Hn Hr Ho) as (N1 & N2 & _). split; [|split; [|split]].
    - constructor.
      + rewrite in_app_iff, shift_in. intros [[_ H]|[E|[E|[E|[]]]]]; try lia; [replace (n + r1 - n)%nat with r1 in H by lia; auto|]. apply N1. left. lia.
      + apply NoDup_app_intro.
        * apply FinFun.Injective_map_NoDup; [intros x z; lia|apply sp_nodup].
        * constructor; [intros [E|[E|[]]]; [congruence|lia]|constructor; [intros [E|[]]; lia|repeat constructor; easy]].
        * intros x Hx Hy. apply shift_in in Hx. destruct Hx as [H1 H2]. destruct Hy as [<-|[<-|[<-|[]]]]; [lia|lia|]. replace (n + r0 - n)%nat with r0 in H2 by lia. apply N1. now right.
    - intros x [<-|Hx]; [lia|]. apply in_app_iff in Hx. rewrite shift_in in Hx. destruct Hx as [[H1 H2]|[E|[E|[E|[]]]]]; [apply rhs_lt in H2|..]; lia.
    - cbn [length]. rewrite app_length, map_length, (sp_length c n Hn Hr Ho). cbn. lia.
    - apply Proof_MonteCarlo.sorted_unique; try (apply Proof_MonteCarlo.filter_sorted, Proof_MonteCarlo.seq_sorted). intros a. rewrite !kept_In. cbn [In]. rewrite in_app_iff, shift_in. cbn [In]. split.
      + intros [H1 H2]. destruct (Nat.lt_ge_cases a n) as [Q|Q]; [split; [auto|intuition]|]. exfalso. apply H2. destruct (rhs_cover (a - n)) as [E|[E|E]]; [lia| | |right; left; auto]; [right; right; right; right; left; lia|left; lia].
      + intros [H1 H2]. split; [lia|]. intros [H3|[[H3 _]|[H3|[H3|[H3|[]]]]]]; try lia; apply H2; auto.
  Qed.
  Lemma f_moved5 b yy q q' i kk : moved (2 * n) (seq (n - 1) (n + 1)) dst1 (rest1 b yy ++ phi kk ++ [i; q; q']) (spec_layout (c_out c) (b :: q :: yy) ++ spec_layout (c_rhs c) (q' :: i :: kk)).
  Proof.
    pose proof (rest1_len b yy) as L. pose proof (phi_len kk) as L'. destruct bounds as (B0 & B1 & B2 & B3 & N). split; [rewrite !app_length; cbn; lia|]. split; [rewrite app_length, !lay_len by auto; lia|].
    destruct dst1_ok as (_ & _ & _ & K). rewrite K. split.
    - rewrite read_app, read_shift by (now apply lay_len). rewrite phi_eq. rewrite <- (app_nil_r (phi kk ++ [i; q; q'])). rewrite (read_middle (rest1 b yy) (phi kk ++ [i; q; q']) []); [|exact L|rewrite app_length; cbn; lia]. f_equal. cbn [spec_read map].
      rewrite !shift_at, !left_at, !rhs_at by lia. reflexivity.
    - replace (2 * n)%nat with (n - 1 + (n + 1))%nat by lia. rewrite kept_prefix; [|intros x Hx; apply in_seq; lia|intros x Hx; apply in_seq in Hx; lia]. rewrite read_prefix by auto.
      rewrite read_left by (intros x Hx; rewrite lay_len by auto; apply kept_In in Hx; tauto). apply rest1_eq.
  Qed.

  (** ** Groups of the batch *)

  Lemma b_moved1 b f yy : moved n [p0; p1] [n - 1; n - 2]%nat (spec_layout (c_out c) (b :: f :: yy)) (rest2 yy ++ [f; b]).
  Proof.
    pose proof (rest2_len yy) as L. split; [now apply lay_len|]. split; [rewrite app_length; cbn; lia|]. split.
    - assert (Q1 : nth (n - 2) (rest2 yy ++ [f; b]) 0%nat = f) by now apply nth_mid.
      assert (Q2 : nth (n - 1) (rest2 yy ++ [f; b]) 0%nat = b). { replace (rest2 yy ++ [f; b]) with ((rest2 yy ++ [f]) ++ [b]) by now rewrite <- app_assoc. apply nth_mid. rewrite app_length. cbn. lia. }
      unfold spec_read. cbn [map]. rewrite Q1, Q2, !out_at by lia. reflexivity.
    - rewrite rest2_eq. replace n with (n - 2 + 2)%nat at 3 by lia. rewrite kept_prefix; [now apply read_prefix| |].
      + intros x Hx. cbn [In]. lia.
      + intros x [<-|[<-|[]]]; lia.
  Qed.
  Lemma b_moved3 yy i kk q v : moved (2 * n - 1) [2 * n - 1 - 1; 2 * n - 1 - 2]%nat [2 * n - 1 - 2; 2 * n - 1 - 1]%nat (rest2 yy ++ i :: phi kk ++ [q; v]) (rest2 yy ++ i :: phi kk ++ [v; q]).
  Proof.
    pose proof (rest2_len yy) as L. pose proof (phi_len kk) as L'. split; [rewrite app_length; cbn; rewrite app_length; cbn; lia|]. split; [rewrite app_length; cbn; rewrite app_length; cbn; lia|].
    assert (A : forall x y, rest2 yy ++ i :: phi kk ++ [x; y] = (rest2 yy ++ i :: phi kk) ++ [x; y]) by (intros; now rewrite <- app_assoc).
    assert (A' : forall x y, rest2 yy ++ i :: phi kk ++ [x; y] = (rest2 yy ++ i :: phi kk ++ [x]) ++ [y]) by (intros; rewrite <- app_assoc; cbn [app]; now rewrite <- app_assoc).
    assert (LA : length (rest2 yy ++ i :: phi kk) = (2 * n - 1 - 2)%nat) by (rewrite app_length; cbn; lia).
    assert (LA' : forall x, length (rest2 yy ++ i :: phi kk ++ [x]) = (2 * n - 1 - 1)%nat) by (intros; rewrite app_length; cbn; rewrite app_length; cbn; lia).
    split.
    - assert (Q : forall x y, nth (2 * n - 1 - 2) (rest2 yy ++ i :: phi kk ++ [x; y]) 0%nat = x /\ nth (2 * n - 1 - 1) (rest2 yy ++ i :: phi kk ++ [x; y]) 0%nat = y). { intros. split; [rewrite A; now apply nth_mid|rewrite A'; now apply nth_mid]. }
      unfold spec_read. cbn [map]. destruct (Q v q) as [-> ->]. destruct (Q q v) as [-> ->]. reflexivity.
    - assert (K1 : forall l, (forall x, In x l <-> x = (2 * n - 1 - 1)%nat \/ x = (2 * n - 1 - 2)%nat) -> kept l (2 * n - 1) = seq 0 (2 * n - 1 - 2)).
      { intros l Hl. replace (2 * n - 1)%nat with (2 * n - 1 - 2 + 2)%nat at 1 by lia. apply kept_prefix.
        - intros x Hx. apply Hl. lia.
        - intros x Hx. apply Hl in Hx. lia. }
      rewrite !K1 by (intros x; cbn [In]; lia). rewrite !A. now rewrite !read_prefix by auto.
  Qed.
  Lemma b_moved5 yy b q q' i kk : moved (2 * n) (seq (n - 2) (n + 2)) dst2 (rest2 yy ++ i :: phi kk ++ [b; q; q']) (spec_layout (c_out c) (b :: q :: yy) ++ spec_layout (c_rhs c) (q' :: i :: kk)).
  Proof.
    pose proof (rest2_len yy) as L. pose proof (phi_len kk) as L'. destruct bounds as (B0 & B1 & B2 & B3 & N). split; [rewrite app_length; cbn; rewrite app_length; cbn; lia|]. split; [rewrite app_length, !lay_len by auto; lia|].
    destruct dst2_ok as (_ & _ & _ & K). rewrite K. split.
    - change dst2 with ([(n + r1)%nat] ++ (map (fun i => (n + i)%nat) SP ++ [p0; p1; n + r0]%nat)). rewrite !read_app, read_shift by (now apply lay_len). rewrite phi_eq. rewrite <- (app_nil_r (i :: phi kk ++ [b; q; q'])). rewrite (read_middle (rest2 yy) (i :: phi kk ++ [b; q; q']) []); [|exact L|cbn [length]; rewrite app_length; cbn; lia]. cbn [spec_read map app].
      rewrite !shift_at, !left_at, !rhs_at by lia. reflexivity.
    - replace (2 * n)%nat with (n - 2 + (n + 2))%nat by lia. rewrite kept_prefix; [|intros x Hx; apply in_seq; lia|intros x Hx; apply in_seq in Hx; lia]. rewrite read_prefix by auto.
      rewrite read_left by (intros x Hx; rewrite lay_len by auto; apply kept_In in Hx; tauto). apply rest2_eq.
  Qed.
End Paths.
