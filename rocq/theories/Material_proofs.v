(** Proofs about the permeability look-up and its relaxation. *)
From Coq Require Import String.
From Coq Require Import List Arith ZArith NArith Bool Lia Reals Lra.
From Verif Require Import Base SumR AlgebraModel AlgebraSpec Csr_proofs SolversModel SolversSpec GeometryModel GeometrySpec Geometry_proofs MaterialModel MaterialSpec.
Import ListNotations.
Local Open Scope R_scope.

Ltac toB := unfold bh in *; change (T ROps) with R in *.
Lemma lower_bound_spec : forall (c : list (R * R)) (B : R), let k := lower_bound ROps c B in
  (k <= length c)%nat /\ (forall j, (j < k)%nat -> Bi c j < B) /\ ((k < length c)%nat -> B <= Bi c k).
Proof.
  induction c as [|q r IH]; intros B k; unfold k; cbn [lower_bound length].
  - repeat split; [lia|intros; lia|lia].
  - change (ltb ROps (fst q) B) with (Rltb (fst q) B). destruct (Rltb (fst q) B) eqn:E.
    + apply Rltb_true in E. destruct (IH B) as [H1 [H2 H3]]. repeat split; [lia| |].
      * intros [|j] Hj; [exact E|apply (H2 j); lia].
      * intros H. apply H3. lia.
    + apply Rltb_false in E. repeat split; [lia|intros; lia|]. intros _. exact E.
Qed.

Lemma slope_at_R : forall (c : list (R * R)) i j, (i < length c)%nat -> (j < length c)%nat -> Hi c j - Hi c i <> 0 ->
  slope_at ROps c i j = Ok ((Bi c j - Bi c i) / (Hi c j - Hi c i)).
Proof.
  intros c i j Li Lj H. unfold slope_at. change (@get (bh ROps)) with (@get (R * R)). unfold get. rewrite (nth_error_nth' c (0, 0) Li), (nth_error_nth' c (0, 0) Lj). cbn [bind].
  cbn [div sub ROps]. unfold Bi, Hi in *. apply Rdivr_ok. exact H.
Qed.
Lemma slope_at_end : forall (c : list (R * R)) i j, (i < length c)%nat -> (length c <= j)%nat -> is_ub (slope_at ROps c i j).
Proof.
  intros c i j Li Lj. unfold slope_at. change (@get (bh ROps)) with (@get (R * R)). unfold get. rewrite (nth_error_nth' c (0, 0) Li), (proj2 (nth_error_None c j) Lj). cbn [bind]. eexists; reflexivity.
Qed.
Lemma slope_at_flat : forall (c : list (R * R)) i j, (i < length c)%nat -> (j < length c)%nat -> Hi c j = Hi c i -> is_nonfin (slope_at ROps c i j).
Proof.
  intros c i j Li Lj H. unfold slope_at. change (@get (bh ROps)) with (@get (R * R)). unfold get. rewrite (nth_error_nth' c (0, 0) Li), (nth_error_nth' c (0, 0) Lj). cbn [bind].
  change (is_nonfin (Rdivr (Bi c j - Bi c i) (Hi c j - Hi c i))). unfold Rdivr. rewrite H.
  destruct (Req_EM_T (Hi c i - Hi c i) 0) as [_|N]; [eexists; reflexivity|exfalso; apply N; ring].
Qed.

Section GetMu.
Variable p : mprop ROps.
Variable c : list (R * R).
Hypothesis Ec : p_bh p = c.
Hypothesis two : (2 <= @length (R * R) c)%nat.
Hypothesis inc : increasing c.

Lemma getMu_step : forall B, getMu ROps p B =
  (let it := lower_bound ROps c B in if Nat.eqb it 0 then slope_at ROps c it (S it) else if Nat.eqb it (length c) then slope_at ROps c (it - 1) (it - 2) else slope_at ROps c it (S it)).
Proof using two Ec. clear inc. intros B. unfold getMu. rewrite Ec. toB. destruct (Nat.eqb_spec (length c) 0); [lia|]. destruct (Nat.eqb_spec (length c) 1); [lia|]. reflexivity. Qed.

Lemma lb_last : forall B, in_last_interval c B -> lower_bound ROps c B = (length c - 1)%nat.
Proof using two inc Ec.
  intros B [H1 H2]. destruct (lower_bound_spec c B) as [L1 [L2 L3]]. set (k := lower_bound ROps c B) in *. toB. clearbody k. destruct inc as [OO _].
  destruct (Nat.lt_trichotomy k (length c - 1)) as [C|[C|C]]; auto.
  - exfalso. assert (B <= Bi c k) by (apply L3; lia).
    destruct (Nat.eq_dec k (length c - 2)) as [->|N]; [lra|]. assert (Bi c k < Bi c (length c - 2)) by (apply OO; lia). lra.
  - exfalso. assert (Bi c (length c - 1) < B) by (apply L2; lia). lra.
Qed.
Lemma getMu_off_end : forall B, in_last_interval c B -> is_ub (getMu ROps p B).
Proof using two inc Ec.
  intros B H. rewrite getMu_step. cbv zeta. toB. rewrite (lb_last B H).
  destruct (Nat.eqb_spec (length c - 1) 0); [lia|]. destruct (Nat.eqb_spec (length c - 1) (length c)); [lia|]. apply slope_at_end; lia.
Qed.
Lemma getMu_defined : forall B, ~ in_last_interval c B -> exists i, (S i < length c)%nat /\ getMu ROps p B = Ok (segment_slope c i) /\
  (B <= Bi c 0 -> i = O) /\ (Bi c (length c - 1) < B -> i = (length c - 2)%nat) /\ (Bi c 0 < B <= Bi c (length c - 1) -> (0 < i)%nat /\ Bi c (i - 1) < B <= Bi c i).
Proof using two inc Ec.
  intros B H. rewrite getMu_step. cbv zeta. toB. destruct (lower_bound_spec c B) as [L1 [L2 L3]]. set (k := lower_bound ROps c B) in *. toB. clearbody k. destruct inc as [OO HO].
  assert (O01 : Bi c 0 < Bi c (length c - 1)) by (apply OO; lia).
  destruct (Nat.eqb_spec k 0) as [K0|K0].
  - exists 0%nat. rewrite K0 in *. split; [lia|]. split; [unfold segment_slope; apply slope_at_R; try lia|].
    { assert (Hi c 0 < Hi c 1) by (apply HO; lia). lra. }
    assert (B <= Bi c 0) by (apply L3; lia). repeat split; auto; intros; try lra; lia.
  - assert (B0 : Bi c 0 < B) by (apply L2; lia). destruct (Nat.eqb_spec k (length c)) as [KN|KN].
    + exists (length c - 2)%nat. split; [lia|]. assert (BL : Bi c (length c - 1) < B) by (apply L2; lia).
      split; [|repeat split; intros; try lra; lia].
      rewrite slope_at_R; try lia.
      * rewrite KN. unfold segment_slope. replace (S (length c - 2)) with (length c - 1)%nat by lia.
        assert (Hi c (length c - 2) < Hi c (length c - 1)) by (apply HO; lia).
        f_equal. field. split; lra.
      * rewrite KN. assert (Hi c (length c - 2) < Hi c (length c - 1)) by (apply HO; lia). lra.
    + assert (BK : B <= Bi c k) by (apply L3; lia). assert (BM : Bi c (k - 1) < B) by (apply L2; lia).
      assert (KL : (k < length c - 1)%nat).
      { destruct (Nat.eq_dec k (length c - 1)) as [E|E]; [|lia]. exfalso. apply H. split; [|rewrite <- E; exact BK].
        replace (length c - 2)%nat with (k - 1)%nat by lia. exact BM. }
      exists k. split; [lia|]. split; [apply slope_at_R; try lia; assert (Hi c k < Hi c (S k)) by (apply HO; lia); lra|].
      assert (Bi c k < Bi c (length c - 1)) by (apply OO; lia). repeat split; intros; try lra; lia.
Qed.
Lemma segment_slope_pos : forall i, (S i < length c)%nat -> 0 < segment_slope c i.
Proof using inc.
  clear two Ec. intros i Hi. destruct inc as [OO HO]. unfold segment_slope. apply Rdiv_lt_0_compat; [specialize (OO i (S i))|specialize (HO i (S i))]; lra || (assert (i < S i)%nat by lia; intuition lra).
Qed.
Lemma in_last_dec : forall B, in_last_interval c B \/ ~ in_last_interval c B.
Proof using. clear. intros B. unfold in_last_interval. destruct (Rlt_dec (Bi c (length c - 2)) B); destruct (Rle_dec B (Bi c (length c - 1))); [left; auto|right; tauto|right; tauto|right; tauto]. Qed.
Lemma getMu_ub_iff : forall B, is_ub (getMu ROps p B) <-> in_last_interval c B.
Proof using two inc Ec.
  intros B. split; [|apply getMu_off_end]. intros [s E]. destruct (in_last_dec B) as [H|H]; auto.
  destruct (getMu_defined B H) as [i [_ [E' _]]]. rewrite E' in E. discriminate.
Qed.
End GetMu.

(** ** the curve built by set::insert *)
Fixpoint below (b : R) (c : list (R * R)) : Prop := match c with [] => True | q :: r => b < fst q /\ below b r end.
Fixpoint chain (c : list (R * R)) : Prop := match c with [] => True | q :: r => below (fst q) r /\ chain r end.
Lemma below_nth : forall c b j, below b c -> (j < length c)%nat -> b < Bi c j.
Proof. induction c as [|q r IH]; intros b j H L; cbn in L; [lia|]. destruct H as [H1 H2]. destruct j; [exact H1|]. apply (IH b j H2). lia. Qed.
Lemma chain_ordered : forall c, chain c -> ordered c.
Proof.
  induction c as [|q r IH]; intros H i j Hij Hj; cbn in Hj; [lia|]. destruct H as [H1 H2]. destruct j as [|j]; [lia|]. destruct i as [|i].
  - apply (below_nth r (fst q) j H1). lia.
  - apply (IH H2 i j); lia.
Qed.
Lemma below_trans : forall c a b, a <= b -> below b c -> below a c.
Proof. induction c as [|q r IH]; intros a b H X; cbn in *; auto. destruct X as [X1 X2]. split; [lra|]. apply (IH a b); auto. Qed.
Lemma below_insert : forall (c : list (R * R)) (b : R) (q : R * R), below b c -> b < fst q -> below b (bh_insert ROps c q).
Proof.
  induction c as [|x r IH]; intros b q H L; cbn [bh_insert]; toB; change (ltb ROps) with Rltb; [cbn; auto|]. destruct H as [H1 H2].
  destruct (Rltb (fst x) (fst q)); [cbn; split; auto|]. destruct (Rltb (fst q) (fst x)); cbn; auto.
Qed.
Lemma chain_insert : forall (c : list (R * R)) (q : R * R), chain c -> chain (bh_insert ROps c q).
Proof.
  induction c as [|x r IH]; intros q H; cbn [bh_insert]; toB; change (ltb ROps) with Rltb; [cbn; auto|]. destruct H as [H1 H2].
  destruct (Rltb (fst x) (fst q)) eqn:E1.
  - apply Rltb_true in E1. cbn. split; auto. apply below_insert; auto.
  - destruct (Rltb (fst q) (fst x)) eqn:E2; [|cbn; auto].
    apply Rltb_true in E2. cbn. repeat split; auto. apply (below_trans r (fst q) (fst x)); auto. lra.
Qed.
Lemma curve_ordered : forall l, ordered (bh_curve ROps l).
Proof.
  intros l. apply chain_ordered. unfold bh_curve.
  assert (G : forall (l c : list (R * R)), chain c -> chain (fold_left (bh_insert ROps) l c)).
  { clear l. induction l as [|q l IH]; intros c H; cbn [fold_left]; [exact H|]. apply IH. apply chain_insert. exact H. }
  apply (G l []). exact I.
Qed.
(** every point is in the set, or another one with the same B is *)
Lemma insert_keeps : forall (c : list (R * R)) (q x : R * R), In x c -> In x (bh_insert ROps c q).
Proof.
  induction c as [|y r IH]; intros q x H; [destruct H|]. cbn [bh_insert]. toB; change (ltb ROps) with Rltb. destruct (Rltb (fst y) (fst q)).
  - destruct H as [->|H]; [left; reflexivity|right; auto].
  - destruct (Rltb (fst q) (fst y)); [right; exact H|exact H].
Qed.
Lemma insert_adds : forall (c : list (R * R)) (q : R * R), exists x, In x (bh_insert ROps c q) /\ fst x = fst q /\ (x = q \/ In x c).
Proof.
  induction c as [|y r IH]; intros q; cbn [bh_insert]; toB; change (ltb ROps) with Rltb; [exists q; cbn; auto|].
  destruct (Rltb (fst y) (fst q)) eqn:E1.
  - destruct (IH q) as [x [H1 [H2 H3]]]. exists x. split; [right; auto|]. split; auto. destruct H3; auto. right. right. auto.
  - destruct (Rltb (fst q) (fst y)) eqn:E2.
    + exists q. split; [left; reflexivity|]. auto.
    + apply Rltb_false in E1. apply Rltb_false in E2. exists y. split; [left; reflexivity|]. split; [lra|]. right. left. reflexivity.
Qed.
Lemma insert_only : forall (c : list (R * R)) (q x : R * R), In x (bh_insert ROps c q) -> x = q \/ In x c.
Proof.
  induction c as [|y r IH]; intros q x H; cbn [bh_insert] in H; toB; change (ltb ROps) with Rltb in H; [destruct H as [<-|[]]; auto|].
  destruct (Rltb (fst y) (fst q)).
  - destruct H as [->|H]; [right; left; reflexivity|]. destruct (IH q x H); auto. right. right. auto.
  - destruct (Rltb (fst q) (fst y)); [destruct H as [<-|H]; auto|auto].
Qed.
Lemma curve_points : forall (l : list (R * R)) x, (In x (bh_curve ROps l) -> In x l) /\ (In x l -> exists y, In y (bh_curve ROps l) /\ fst y = fst x).
Proof.
  intros l. unfold bh_curve. assert (G : forall (l c : list (R * R)) x, (In x (fold_left (bh_insert ROps) l c) -> In x l \/ In x c) /\
    ((In x l \/ In x c) -> exists y, In y (fold_left (bh_insert ROps) l c) /\ fst y = fst x)).
  { clear l. induction l as [|q l IH]; intros c x; cbn [fold_left].
    - split; [auto|]. intros [[]|H]. exists x. auto.
    - destruct (IH (bh_insert ROps c q) x) as [H1 H2]. split.
      + intros H. destruct (H1 H) as [H'|H']; [left; right; auto|]. destruct (insert_only c q x H'); [left; left; auto|auto].
      + intros [[->|H]|H]; [|apply H2; auto|].
        * destruct (insert_adds c x) as [y [Y1 [Y2 _]]]. destruct (IH (bh_insert ROps c x) y) as [_ H3].
          destruct H3 as [z [Z1 Z2]]; auto. exists z. split; auto. exact (eq_trans Z2 Y2).
        * apply H2. right. apply insert_keeps. exact H. }
  intros x. destruct (G l [] x) as [H1 H2]. split; [intros H; destruct (H1 H) as [?|[]]; auto|intros H; apply H2; auto].
Qed.

(** ** pointwise updates in a loop *)
Definition fails_as {X Y} (x : res X) (y : res Y) : Prop :=
  (exists s, x = UB s /\ y = UB s) \/ (exists s, x = Throw s /\ y = Throw s) \/ (exists s, x = NonFin s /\ y = NonFin s).
Lemma pointwise_loop : forall (X : Type) (d : X) (f : nat -> X -> res X) (body : nat -> list X -> res (list X)) n a (l : list X),
  (a + n <= length l)%nat ->
  (forall i l', (a <= i < a + n)%nat -> length l' = length l -> body i l' = (old <- get l' i ;; v <- f i old ;; set l' i v)) ->
  (exists l', forM_from n a body l = Ok l' /\ length l' = length l /\ (forall i, (a <= i < a + n)%nat -> f i (nth i l d) = Ok (nth i l' d)) /\
     (forall i, (i < a \/ a + n <= i)%nat -> nth i l' d = nth i l d)) \/
  (exists i, (a <= i < a + n)%nat /\ (forall j, (a <= j < i)%nat -> is_ok (f j (nth j l d))) /\ fails_as (f i (nth i l d)) (forM_from n a body l)).
Proof.
  intros X d f body n. induction n as [|n IH]; intros a l L B; cbn [forM_from].
  - left. exists l. split; [reflexivity|]. split; [reflexivity|]. split; [intros; lia|auto].
  - rewrite B by (auto; lia). unfold get. rewrite (nth_error_nth' l d) by lia. cbn [bind].
    destruct (f a (nth a l d)) as [v|s|s|s] eqn:F; cbn [bind].
    + unfold set. destruct (Nat.ltb_spec a (length l)); [|lia]. cbn [bind].
      destruct (IH (S a) (upd l a v)) as [[l' [E [E1 [E2 E3]]]]|[i [I1 [I2 I3]]]].
      * rewrite upd_length. lia.
      * intros i l' Hi Hl. rewrite upd_length in Hl. apply B; auto. lia.
      * left. exists l'. rewrite E. split; [reflexivity|]. rewrite upd_length in E1. split; [exact E1|]. split.
        -- intros i Hi. destruct (Nat.eq_dec i a) as [->|N].
           ++ rewrite (E3 a) by lia. rewrite nth_upd by lia. rewrite Nat.eqb_refl. exact F.
           ++ rewrite <- (E2 i) by lia. rewrite nth_upd by lia. destruct (Nat.eqb_spec i a); [contradiction|]. reflexivity.
        -- intros i Hi. rewrite (E3 i) by lia. destruct (Nat.lt_ge_cases i (length l)) as [Li|Li].
           ++ rewrite nth_upd by lia. destruct (Nat.eqb_spec i a); [lia|]. reflexivity.
           ++ rewrite !nth_overflow; auto. rewrite upd_length. lia.
      * right. exists i. split; [lia|]. split.
        -- intros j Hj. destruct (Nat.eq_dec j a) as [->|N]; [rewrite F; eexists; reflexivity|].
           specialize (I2 j ltac:(lia)). rewrite nth_upd in I2 by lia. destruct (Nat.eqb_spec j a); [lia|]. exact I2.
        -- rewrite nth_upd in I3 by lia. destruct (Nat.eqb_spec i a); [lia|]. exact I3.
    + right. exists a. split; [lia|]. split; [intros; lia|]. rewrite F. right; left. eauto.
    + right. exists a. split; [lia|]. split; [intros; lia|]. rewrite F. left. eauto.
    + right. exists a. split; [lia|]. split; [intros; lia|]. rewrite F. right; right. eauto.
Qed.

(** ** updateMu *)
Lemma weight_range : forall iter, 0 < weight iter <= 1.
Proof.
  intros iter. unfold weight. split; [apply exp_pos|]. rewrite <- exp_0. assert (0 <= INR iter) by apply pos_INR.
  destruct (Req_dec (INR iter) 0) as [->|N]; [right; f_equal; field|]. left. apply exp_increasing. lra.
Qed.
Lemma weight_0 : weight 0 = 1.
Proof. unfold weight. cbn [INR]. rewrite <- exp_0. f_equal. field. Qed.


Lemma relax_R : forall vac k r (p : mprop ROps) old (B : pt), relax ROps vac k r p old B =
  (g <- getMu ROps p (dist B org) ;; if isLinear ROps p then Ok g else Ok (g * (1 - k) + (old + vac * r * r) * k)).
Proof. intros. unfold relax. rewrite norm_R. reflexivity. Qed.

Section Upd.
Variables (vac : R) (Bs : list pt) (props : list (mprop ROps)) (mu : list R) (res_ : R) (iter : nat).
Hypothesis L1 : length mu = length Bs.
Hypothesis L2 : (length Bs <= length props)%nat.
Notation f := (fun i old => relax ROps vac (weight iter) res_ (nth i props no_material) old (nth i Bs org)).

Lemma updateMu_step :
  (exists mu', updateMu ROps exp vac Bs props mu res_ iter = Ok mu' /\ length mu' = length mu /\ (forall i, (i < length mu)%nat -> f i (vget mu i) = Ok (vget mu' i))) \/
  (exists i, (i < length mu)%nat /\ (forall j, (j < i)%nat -> is_ok (f j (vget mu j))) /\ fails_as (f i (vget mu i)) (updateMu ROps exp vac Bs props mu res_ iter)).
Proof using L1 L2.
  unfold updateMu. toR. match goal with |- context [Nat.eqb ?a ?b] => destruct (Nat.eqb_spec a b) as [_|N]; [|contradiction] end. cbn [negb].
  cbn [div opp ofZ ROps]. rewrite Rdivr_ok by lra. cbn [bind].
  assert (W : exp (- IZR (Z.of_nat iter) / 5) = weight iter) by (unfold weight; rewrite INR_IZR_INZ; reflexivity).
  unfold forM_up. cbv zeta.
  match goal with |- context [forM_from _ _ ?b mu] => set (body := b) end.
  destruct (pointwise_loop R 0 f body (length Bs) 0 mu) as [[mu' [E [E1 [E2 _]]]]|[i [I1 [I2 I3]]]].
  - lia.
  - intros i l' Hi Hl. unfold body. unfold get at 1 2. rewrite (nth_error_nth' Bs org) by lia. cbn [bind]. rewrite (nth_error_nth' props no_material) by lia. cbn [bind].
    rewrite W. reflexivity.
  - left. exists mu'. split; [exact E|]. split; [lia|]. intros i Hi. apply E2. lia.
  - right. exists i. split; [lia|]. split; [intros j Hj; apply I2; lia|exact I3].
Qed.
End Upd.

(** what getMu does for a proper material *)
Lemma proper_getMu : forall p B, proper_material p -> (is_ub (getMu ROps p B) /\ off_the_end p B) \/ (exists g, getMu ROps p B = Ok g /\ 0 < g /\ ~ off_the_end p B).
Proof.
  intros p B [[E M]|[T I]].
  - right. exists (p_mu p). unfold getMu. rewrite E. cbn [length Nat.eqb]. split; [reflexivity|]. split; auto. intros [X _]. auto.
  - assert (NE : p_bh p <> []) by (intros X; rewrite X in T; cbn in T; lia). destruct (in_last_dec (p_bh p) B) as [H|H].
    + left. split; [apply (getMu_off_end p (p_bh p) eq_refl); auto|split; auto].
    + right. destruct (getMu_defined p (p_bh p) eq_refl T I B H) as [i [Hi [E _]]]. exists (segment_slope (p_bh p) i). split; auto. split; [apply segment_slope_pos; auto|]. intros [_ X]. auto.
Qed.
Lemma linear_iff : forall p : mprop ROps, isLinear ROps p = true <-> p_bh p = [].
Proof. intros p. unfold isLinear. rewrite Nat.eqb_eq. split; [apply length_zero_iff_nil|intros ->; reflexivity]. Qed.
Lemma linear_getMu : forall (p : mprop ROps) B, p_bh p = [] -> getMu ROps p B = Ok (p_mu p).
Proof. intros p B E. unfold getMu. rewrite E. reflexivity. Qed.

(** what an update does *)
Lemma updateMu_values : forall (vac : R) (Bs : list pt) (props : list (mprop ROps)) (mu : list R) (r : R) (iter : nat) (mu' : list R), length mu = length Bs -> (length Bs <= length props)%nat -> updateMu ROps exp vac Bs props mu r iter = Ok mu' ->
  length mu' = length mu /\ forall i, (i < length mu)%nat -> let p := nth i props no_material in
    (p_bh p = [] -> vget mu' i = p_mu p) /\
    (p_bh p <> [] -> exists g, getMu ROps p (dist (nth i Bs org) org) = Ok g /\ vget mu' i = (1 - weight iter) * g + weight iter * (vget mu i + vac * (r * r))).
Proof.
  intros vac Bs props mu r iter mu' L1 L2 E. destruct (updateMu_step vac Bs props mu r iter L1 L2) as [[mu1 [E' [Lm H]]]|[i [_ [_ F]]]].
  - rewrite E in E'. injection E' as <-. split; auto. intros i Hi p. specialize (H i Hi). cbv beta in H. rewrite relax_R in H. fold p in H. split.
    + intros E0. rewrite (linear_getMu p _ E0) in H. cbn [bind] in H. rewrite (proj2 (linear_iff p) E0) in H. injection H as H. auto.
    + intros NE. destruct (isLinear ROps p) eqn:Lp; [apply linear_iff in Lp; contradiction|].
      destruct (getMu ROps p (dist (nth i Bs org) org)) as [g|s|s|s] eqn:G; cbn [bind] in H; try discriminate.
      exists g. split; auto. injection H as H. rewrite <- H. ring.
  - exfalso. rewrite E in F. destruct F as [[s [_ F]]|[[s [_ F]]|[s [_ F]]]]; discriminate.
Qed.
Lemma updateMu_defined : forall (vac : R) (Bs : list pt) (props : list (mprop ROps)) (mu : list R) (r : R) (iter : nat), length mu = length Bs -> (length Bs <= length props)%nat -> Forall proper_material props ->
  (is_ub (updateMu ROps exp vac Bs props mu r iter) <-> exists i, (i < length mu)%nat /\ off_the_end (nth i props no_material) (dist (nth i Bs org) org)) /\
  (is_ub (updateMu ROps exp vac Bs props mu r iter) \/ is_ok (updateMu ROps exp vac Bs props mu r iter)).
Proof.
  intros vac Bs props mu r iter L1 L2 PM.
  assert (PR : forall i, (i < length mu)%nat -> proper_material (nth i props no_material)).
  { intros i Hi. rewrite Forall_forall in PM. apply PM. apply nth_In. lia. }
  destruct (updateMu_step vac Bs props mu r iter L1 L2) as [[mu1 [E [Lm H]]]|[i [Hi [_ F]]]].
  - split; [split|right; eexists; eauto].
    + intros [s X]. rewrite E in X. discriminate.
    + intros [i [Hi O]]. exfalso. specialize (H i Hi). cbv beta in H. rewrite relax_R in H.
      destruct (proper_getMu _ (dist (nth i Bs org) org) (PR i Hi)) as [[[s U] _]|[g [_ [_ N]]]]; [rewrite U in H; discriminate|contradiction].
  - rewrite relax_R in F. destruct (proper_getMu _ (dist (nth i Bs org) org) (PR i Hi)) as [[[s U] O]|[g [G [_ N]]]].
    + rewrite U in F. cbn [bind] in F. assert (UB1 : is_ub (updateMu ROps exp vac Bs props mu r iter)).
      { destruct F as [[s' [_ F]]|[[s' [F _]]|[s' [F _]]]]; [eexists; eauto|discriminate|discriminate]. }
      split; [split; [intros _; exists i; auto|auto]|auto].
    + exfalso. rewrite G in F. cbn [bind] in F. destruct (isLinear ROps (nth i props no_material)); destruct F as [[s' [F _]]|[[s' [F _]]|[s' [F _]]]]; discriminate.
Qed.
Lemma updateMu_positive : forall (vac : R) (Bs : list pt) (props : list (mprop ROps)) (mu : list R) (r : R) (iter : nat) (mu' : list R), 0 <= vac -> length mu = length Bs -> (length Bs <= length props)%nat -> Forall proper_material props ->
  (forall i, (i < length mu)%nat -> 0 < vget mu i) -> updateMu ROps exp vac Bs props mu r iter = Ok mu' -> forall i, (i < length mu')%nat -> 0 < vget mu' i.
Proof.
  intros vac Bs props mu r iter mu' V L1 L2 PM PP E i Hi. destruct (updateMu_values _ _ _ _ _ _ _ L1 L2 E) as [Lm H]. rewrite Lm in Hi. destruct (H i Hi) as [H1 H2]. clear H. rewrite Forall_forall in PM.
  assert (PR : proper_material (nth i props no_material)) by (apply PM, nth_In; lia).
  destruct (p_bh (nth i props no_material)) as [|q c] eqn:C.
  - rewrite H1 by reflexivity. destruct PR as [[_ P]|[T _]]; auto. rewrite C in T. cbn in T. lia.
  - destruct H2 as [g [G ->]]; [discriminate|]. destruct (weight_range iter) as [W0 W1].
    assert (0 < g). { destruct (proper_getMu _ (dist (nth i Bs org) org) PR) as [[[s U] _]|[g' [G' [P _]]]]; [rewrite U in G; discriminate|]. rewrite G in G'. injection G' as <-. exact P. }
    assert (0 < weight iter * (vget mu i + vac * (r * r))). { apply Rmult_lt_0_compat; auto. specialize (PP i Hi). assert (0 <= vac * (r * r)) by (apply Rmult_le_pos; auto; apply Rle_0_sqr). lra. }
    assert (0 <= (1 - weight iter) * g) by (apply Rmult_le_pos; lra). lra.
Qed.
Lemma updateMu_wrong_length : forall (vac : R) (Bs : list pt) (props : list (mprop ROps)) (mu : list R) (r : R) (iter : nat), length mu <> length Bs -> is_throw (updateMu ROps exp vac Bs props mu r iter).
Proof. intros. unfold updateMu. toR. match goal with |- context [Nat.eqb ?a ?b] => destruct (Nat.eqb_spec a b) as [N|_]; [contradiction|] end. eexists; reflexivity. Qed.
Lemma updates_positive : forall (vac : R) (props : list (mprop ROps)) (mu mu' : list R), 0 <= vac -> Forall proper_material props -> (length mu <= length props)%nat -> (forall i, (i < length mu)%nat -> 0 < vget mu i) ->
  updates vac props mu mu' -> length mu' = length mu /\ forall i, (i < length mu')%nat -> 0 < vget mu' i.
Proof.
  intros vac props mu mu' V PM L PP U. induction U as [|mu1 mu2 Bs r iter U [IL IP] E]; auto.
  destruct (Nat.eq_dec (length mu1) (@length pt Bs)) as [LB|LB].
  all: toR.
  - destruct (updateMu_values vac Bs props mu1 r iter mu2 LB ltac:(lia) E) as [L2 _]. split; [congruence|].
    apply (updateMu_positive vac Bs props mu1 r iter mu2 V LB ltac:(lia) PM IP E).
  - exfalso. destruct (updateMu_wrong_length vac Bs props mu1 r iter LB) as [s X]. rewrite E in X. discriminate.
Qed.
Lemma updateMu_bounds : forall (vac : R) (Bs : list pt) (props : list (mprop ROps)) (mu : list R) (r : R) (iter : nat) (mu' : list R) (i : nat), 0 <= vac -> length mu = length Bs -> (length Bs <= length props)%nat -> updateMu ROps exp vac Bs props mu r iter = Ok mu' ->
  (i < length mu)%nat -> exists g, getMu ROps (nth i props no_material) (dist (nth i Bs org) org) = Ok g /\
    Rmin (vget mu i) g <= vget mu' i <= Rmax (vget mu i + vac * (r * r)) g.
Proof.
  intros vac Bs props mu r iter mu' i V L1 L2 E Hi. destruct (updateMu_values _ _ _ _ _ _ _ L1 L2 E) as [Lm H]. destruct (H i Hi) as [H1 H2]. clear H.
  destruct (weight_range iter) as [W0 W1]. assert (Q : 0 <= vac * (r * r)) by (apply Rmult_le_pos; auto; apply Rle_0_sqr).
  destruct (p_bh (nth i props no_material)) as [|q c] eqn:C.
  - exists (p_mu (nth i props no_material)). split; [apply linear_getMu; exact C|]. rewrite H1 by reflexivity. split; [apply Rmin_r|apply Rmax_r].
  - destruct H2 as [g [G ->]]; [discriminate|]. exists g. split; auto.
    set (a := vget mu i) in *. set (e := vac * (r * r)) in *. set (w := weight iter) in *. clearbody a e w. clear - W0 W1 Q.
    split.
    + pose proof (Rmin_l a g). pose proof (Rmin_r a g). set (mn := Rmin a g) in *. clearbody mn.
      assert ((1 - w) * mn <= (1 - w) * g) by (apply Rmult_le_compat_l; lra). assert (w * mn <= w * (a + e)) by (apply Rmult_le_compat_l; lra). lra.
    + pose proof (Rmax_l (a + e) g). pose proof (Rmax_r (a + e) g). set (mx := Rmax (a + e) g) in *. clearbody mx.
      assert ((1 - w) * g <= (1 - w) * mx) by (apply Rmult_le_compat_l; lra). assert (w * (a + e) <= w * mx) by (apply Rmult_le_compat_l; lra). lra.
Qed.

(** ** out of bounds, in any arithmetic *)
Section AnyOps.
Variable o : Ops.
Hypothesis Tot : scalar_ops_total o.
Lemma lb_gen : forall (c : list (bh o)) (B : T o), let k := lower_bound o c B in
  (k <= length c)%nat /\ (forall j q, (j < k)%nat -> nth_error c j = Some q -> ltb o (fst q) B = true) /\ (forall q, nth_error c k = Some q -> ltb o (fst q) B = false).
Proof using.
  clear Tot. induction c as [|q r IH]; intros B k; unfold k; cbn [lower_bound length].
  - repeat split; [lia|intros; lia|intros q H; discriminate].
  - destruct (ltb o (fst q) B) eqn:E.
    + destruct (IH B) as [H1 [H2 H3]]. repeat split; [lia| |].
      * intros [|j] x Hj Hx; [injection Hx as <-; exact E|apply (H2 j); auto; lia].
      * intros x Hx. apply H3. exact Hx.
    + repeat split; [lia|intros; lia|]. intros x Hx. injection Hx as <-. exact E.
Qed.
Lemma lb_split : forall (pre : list (bh o)) q B, Forall (fun x => ltb o (fst x) B = true) pre -> ltb o (fst q) B = false -> lower_bound o (pre ++ [q]) B = length pre.
Proof using.
  clear Tot. intros pre q B F E. induction F as [|x l H F IH]; cbn [lower_bound app length]; [rewrite E; reflexivity|rewrite H, IH; reflexivity].
Qed.
Lemma slope_safe : forall (c : list (bh o)) i j, (i < length c)%nat -> (j < length c)%nat -> ~ is_ub (slope_at o c i j).
Proof using Tot.
  intros c i j Li Lj. unfold slope_at, get. destruct (nth_error c i) eqn:E1; [|apply nth_error_None in E1; lia]. destruct (nth_error c j) eqn:E2; [|apply nth_error_None in E2; lia].
  cbn [bind]. apply Tot.
Qed.
Lemma getMu_ub : forall (p : mprop o) B, is_ub (getMu o p B) <->
  exists pre q, p_bh p = pre ++ [q] /\ pre <> [] /\ Forall (fun x => ltb o (fst x) B = true) pre /\ ltb o (fst q) B = false.
Proof using Tot.
  intros p B. unfold getMu. set (c := p_bh p). clearbody c. split.
  - destruct (Nat.eqb_spec (length c) 0); [intros [s H]; discriminate|]. destruct (Nat.eqb_spec (length c) 1); [intros [s H]; discriminate|].
    cbv zeta. destruct (lb_gen c B) as [H1 [H2 H3]]. set (k := lower_bound o c B) in *. clearbody k. intros U.
    assert (K : (0 < k)%nat /\ k = (length c - 1)%nat).
    { destruct (Nat.eqb_spec k 0); [exfalso; apply (slope_safe c k (S k)); auto; lia|]. destruct (Nat.eqb_spec k (length c)); [exfalso; apply (slope_safe c (k - 1) (k - 2)); auto; lia|].
      split; [lia|]. destruct (Nat.eq_dec k (length c - 1)); auto. exfalso. apply (slope_safe c k (S k)); auto; lia. }
    destruct K as [K0 K1]. destruct (nth_error c k) as [q|] eqn:Q; [|apply nth_error_None in Q; lia].
    destruct (nth_error_split c k Q) as [pre [post [E L]]]. assert (post = []) as -> by (destruct post; auto; rewrite E in K1; rewrite app_length in K1; cbn in K1; lia).
    exists pre, q. split; [exact E|]. split; [intros X; subst pre; cbn in L; lia|]. split; [|apply H3; reflexivity].
    apply Forall_forall. intros x Hx. destruct (In_nth_error pre x Hx) as [j Hj]. assert (j < length pre)%nat by (apply nth_error_Some; rewrite Hj; discriminate).
    apply (H2 j); [lia|]. rewrite E. rewrite nth_error_app1 by auto. exact Hj.
  - intros [pre [q [-> [NE [F E]]]]]. rewrite app_length. cbn [length]. assert (0 < length pre)%nat by (destruct pre; [contradiction|cbn; lia]).
    destruct (Nat.eqb_spec (length pre + 1) 0); [lia|]. destruct (Nat.eqb_spec (length pre + 1) 1); [lia|]. cbv zeta. pose proof (lb_split pre q B F E) as LB. unfold bh in *. rewrite LB.
    destruct (Nat.eqb_spec (length pre) 0); [lia|]. destruct (Nat.eqb_spec (length pre) (length pre + 1)); [lia|].
    unfold slope_at. assert (G1 : get (pre ++ [q]) (length pre) = Ok q) by (unfold get; rewrite nth_error_app2 by lia; rewrite Nat.sub_diag; reflexivity).
    assert (G2 : is_ub (get (pre ++ [q]) (S (length pre)))).
    { unfold get. destruct (nth_error (pre ++ [q]) (S (length pre))) eqn:X; [|eexists; reflexivity]. assert (S (length pre) < length (pre ++ [q]))%nat by (apply nth_error_Some; rewrite X; discriminate). rewrite app_length in *. cbn in *. lia. }
    destruct G2 as [s G2]. unfold bh in *. rewrite G1, G2. cbn [bind]. eexists; reflexivity.
Qed.
End AnyOps.

Lemma proportional_getMu : forall (p : mprop ROps) (nu B : R), (2 <= length (p_bh p))%nat -> ordered (p_bh p) -> 0 < nu -> (forall i, (i < length (p_bh p))%nat -> Hi (p_bh p) i = nu * Bi (p_bh p) i) ->
  ~ in_last_interval (p_bh p) B -> getMu ROps p B = Ok (/ nu).
Proof.
  intros p nu B T OR N PR H. assert (I : increasing (p_bh p)).
  { split; auto. intros i j Hij Hj. rewrite !PR by (toB; lia). apply Rmult_lt_compat_l; auto. }
  destruct (getMu_defined p (p_bh p) eq_refl T I B H) as [i [Hi_ [E _]]]. rewrite E. f_equal. unfold segment_slope.
  rewrite !PR by (toB; lia). specialize (OR i (S i) ltac:(lia) Hi_). replace (nu * Bi (p_bh p) (S i) - nu * Bi (p_bh p) i) with (nu * (Bi (p_bh p) (S i) - Bi (p_bh p) i)) by ring. field. split; lra.
Qed.
