(** Segment intersection (C24). *)
From Coq Require Import String.
From Coq Require Import List Arith ZArith NArith Bool Lia Permutation.
From Coq Require Import Reals Lra Psatz.
From Verif Require Import Base GeometryModel GeometrySpec Geometry_proofs Circle_proofs Polygon_proofs.
Import ListNotations.
Local Open Scope R_scope.

Lemma e100_pos : 0 < e100.
Proof. unfold e100. apply Rinv_0_lt_compat. apply pow_lt. lra. Qed.

Lemma seg_area_R : forall a b c : pt, seg_area ROps a b c = turn a b c.
Proof. reflexivity. Qed.

Lemma coarse_small : forall x, coarse x -> Rltb (Rabs x) e100 = true <-> x = 0.
Proof.
  intros x H. pose proof e100_pos. rewrite Rltb_true. split.
  - intros L. destruct H; auto. lra.
  - intros ->. rewrite Rabs_R0. auto.
Qed.
Lemma coarse_big : forall x, coarse x -> Rltb e100 (Rabs x) = true <-> x <> 0.
Proof.
  intros x H. pose proof e100_pos. rewrite Rltb_true. split.
  - intros L E. subst. rewrite Rabs_R0 in L. lra.
  - intros N. destruct H; auto. contradiction.
Qed.

Lemma fmin_R : forall a b : R, fmin ROps a b = Rmin a b.
Proof.
  intros. unfold fmin. cbn [ltb ROps]. destruct (Rltb b a) eqn:E.
  - apply Rltb_true in E. rewrite Rmin_right; lra.
  - apply Rltb_false in E. rewrite Rmin_left; lra.
Qed.
Lemma fmax_R : forall a b : R, fmax ROps a b = Rmax a b.
Proof.
  intros. unfold fmax. cbn [ltb ROps]. destruct (Rltb a b) eqn:E.
  - apply Rltb_true in E. rewrite Rmax_right; lra.
  - apply Rltb_false in E. rewrite Rmax_left; lra.
Qed.

(** the range test with tolerance is exact on coarse data *)
Lemma range_coarse : forall u v q, coarse (q - u) -> coarse (q - v) ->
  (Rltb (Rmin u v - e100) q && Rltb q (Rmax u v + e100) = true <-> u <= q <= v \/ v <= q <= u).
Proof.
  intros u v q H1 H2. pose proof e100_pos. rewrite andb_true_iff, !Rltb_true.
  assert (S : forall w, coarse (q - w) -> (w - e100 < q -> w <= q) /\ (q < w + e100 -> q <= w)).
  { intros w [Hw|Hw]; [lra|]. split; intros L.
    - destruct (Rle_dec w q); auto. rewrite Rabs_left in Hw by lra. lra.
    - destruct (Rle_dec q w); auto. rewrite Rabs_right in Hw by lra. lra. }
  destruct (S u H1) as [A1 A2]. destruct (S v H2) as [B1 B2].
  unfold Rmin, Rmax. destruct (Rle_dec u v); split; intros; lra.
Qed.

Definition within (a b q : pt) : bool :=
  if Rltb (Rabs (px q - px a)) e100
  then Rltb (fmin ROps (py a) (py b) - e100) (py q) && Rltb (py q) (fmax ROps (py a) (py b) + e100)
  else Rltb (fmin ROps (px a) (px b) - e100) (px q) && Rltb (px q) (fmax ROps (px a) (px b) + e100).

Lemma within_R : forall a b q, a <> b -> turn a b q = 0 -> coarse_for a b q -> (within a b q = true <-> on_segment q a b).
Proof.
  intros a b q Hab Ht [_ [C1 [C2 [C3 C4]]]]. unfold within. rewrite !fmin_R, !fmax_R. unfold turn in Ht.
  destruct (Rltb (Rabs (px q - px a)) e100) eqn:E.
  - apply (coarse_small _ C1) in E. rewrite range_coarse by auto. split; [|intros S0; apply seg_between in S0; tauto].
    intros Hy. replace (px q - px a) with 0 in Ht by lra. rewrite Rmult_0_l, Rminus_0_r in Ht. apply Rmult_integral in Ht.
    destruct Ht as [Ht|Ht].
    + assert (Hn : py b - py a <> 0) by (intros Z; apply Hab; apply pt_ext; lra).
      exists ((py q - py a) / (py b - py a)). split.
      * destruct Hy as [Hy|Hy].
        -- split; [apply Rmult_le_pos; [lra|left; apply Rinv_0_lt_compat; lra]|].
           apply Rmult_le_reg_r with (py b - py a); [lra|]. unfold Rdiv. rewrite Rmult_assoc, Rinv_l, Rmult_1_r by lra. lra.
        -- replace ((py q - py a) / (py b - py a)) with ((py a - py q) / (py a - py b)) by (field; lra).
           split; [apply Rmult_le_pos; [lra|left; apply Rinv_0_lt_compat; lra]|].
           apply Rmult_le_reg_r with (py a - py b); [lra|]. unfold Rdiv. rewrite Rmult_assoc, Rinv_l, Rmult_1_r by lra. lra.
      * apply pt_ext; rewrite ?along_x, ?along_y; [rewrite Ht; lra|field; auto].
    + exists 0. split; [lra|]. apply pt_ext; rewrite ?along_x, ?along_y; lra.
  - assert (Hq : px q - px a <> 0) by (intros Z; apply (coarse_small _ C1) in Z; congruence).
    rewrite range_coarse by auto. split; [|intros S0; apply seg_between in S0; tauto].
    intros Hx.
    assert (Hn : px b - px a <> 0).
    { intros Z. rewrite Z, Rmult_0_l in Ht. assert (Z2 : (px q - px a) * (py b - py a) = 0) by lra. apply Rmult_integral in Z2.
      apply Hab. apply pt_ext; lra. }
    exists ((px q - px a) / (px b - px a)). split.
    + destruct Hx as [Hx|Hx].
      * split; [apply Rmult_le_pos; [lra|left; apply Rinv_0_lt_compat; lra]|].
        apply Rmult_le_reg_r with (px b - px a); [lra|]. unfold Rdiv. rewrite Rmult_assoc, Rinv_l, Rmult_1_r by lra. lra.
      * replace ((px q - px a) / (px b - px a)) with ((px a - px q) / (px a - px b)) by (field; lra).
        split; [apply Rmult_le_pos; [lra|left; apply Rinv_0_lt_compat; lra]|].
        apply Rmult_le_reg_r with (px a - px b); [lra|]. unfold Rdiv. rewrite Rmult_assoc, Rinv_l, Rmult_1_r by lra. lra.
    + apply pt_ext; rewrite ?along_x, ?along_y; [field; auto|].
      apply Rmult_eq_reg_r with (px b - px a); auto. field_simplify; auto. lra.
Qed.

(** shape of the code *)
Lemma intersect_unfold : forall a b c d : pt,
  segmentsIntersect ROps e100 a b c d =
  let C := turn a b c in let D := turn a b d in
  let rest :=
    if Rltb (Rabs D) e100 then
      if within a b d then true
      else if Rltb e100 (Rabs C) then false
      else if Rltb (Rabs (px c - px a)) e100 then xorb (Rltb (py a) (py c)) (Rltb (py a) (py d))
      else xorb (Rltb (px a) (px c)) (Rltb (px a) (px d))
    else if Bool.eqb (Rltb 0 C) (Rltb 0 D) then false
    else xorb (Rltb 0 (turn c d a)) (Rltb 0 (turn c d b)) in
  if Rltb (Rabs C) e100 then if within a b c then true else if Rltb e100 (Rabs D) then false else rest else rest.
Proof. reflexivity. Qed.

Lemma turn_along : forall a b c d t, turn a b (along c d t) = turn a b c + t * (turn a b d - turn a b c).
Proof. intros. unfold turn. rewrite along_x, along_y. ring. Qed.
Lemma on_seg_turn0 : forall q a b, on_segment q a b -> turn a b q = 0.
Proof. intros q a b [t [Ht E]]. subst q. unfold turn. rewrite along_x, along_y. ring. Qed.
Lemma on_seg_end1 : forall a b, on_segment a a b.
Proof. intros. exists 0. split; [lra|]. apply pt_ext; rewrite ?along_x, ?along_y; ring. Qed.
Lemma on_seg_end2 : forall a b, on_segment b a b.
Proof. intros. exists 1. split; [lra|]. apply pt_ext; rewrite ?along_x, ?along_y; ring. Qed.
Lemma share_at : forall a b c d q, on_segment q a b -> on_segment q c d -> share_point a b c d.
Proof. intros. exists q; auto. Qed.

Lemma share_sign : forall a b c d, share_point a b c d -> exists t, 0 <= t <= 1 /\ turn a b c + t * (turn a b d - turn a b c) = 0 /\ on_segment (along c d t) a b.
Proof.
  intros a b c d [q [H1 [t [Ht E]]]]. subst q. exists t. split; auto. split; auto. rewrite <- turn_along. apply on_seg_turn0; auto.
Qed.

(** the line through c d meets the line through a b in a point of both segments *)
Lemma cross_point : forall a b c d, turn a b c <> turn a b d ->
  (turn a b c <= 0 <= turn a b d \/ turn a b d <= 0 <= turn a b c) ->
  (turn c d a <= 0 <= turn c d b \/ turn c d b <= 0 <= turn c d a) -> share_point a b c d.
Proof.
  intros a b c d N HC HA.
  set (C := turn a b c) in *. set (D := turn a b d) in *. set (A := turn c d a) in *. set (B := turn c d b) in *.
  assert (EAB : A - B = D - C) by (unfold A, B, C, D, turn; ring).
  assert (N2 : A - B <> 0) by lra.
  pose (s := A / (A - B)). pose (t := C / (C - D)).
  assert (Hs : 0 <= s <= 1).
  { unfold s. destruct HA as [HA|HA].
    - replace (A / (A - B)) with ((- A) / (B - A)) by (field; lra). split; [apply Rmult_le_pos; [lra|left; apply Rinv_0_lt_compat; lra]|].
      apply Rmult_le_reg_r with (B - A); [lra|]. unfold Rdiv. rewrite Rmult_assoc, Rinv_l, Rmult_1_r by lra. lra.
    - split; [apply Rmult_le_pos; [lra|left; apply Rinv_0_lt_compat; lra]|].
      apply Rmult_le_reg_r with (A - B); [lra|]. unfold Rdiv. rewrite Rmult_assoc, Rinv_l, Rmult_1_r by lra. lra. }
  assert (Ht : 0 <= t <= 1).
  { unfold t. destruct HC as [HC|HC].
    - replace (C / (C - D)) with ((- C) / (D - C)) by (field; lra). split; [apply Rmult_le_pos; [lra|left; apply Rinv_0_lt_compat; lra]|].
      apply Rmult_le_reg_r with (D - C); [lra|]. unfold Rdiv. rewrite Rmult_assoc, Rinv_l, Rmult_1_r by lra. lra.
    - split; [apply Rmult_le_pos; [lra|left; apply Rinv_0_lt_compat; lra]|].
      apply Rmult_le_reg_r with (C - D); [lra|]. unfold Rdiv. rewrite Rmult_assoc, Rinv_l, Rmult_1_r by lra. lra. }
  exists (along a b s). split; [exists s; auto|]. exists t. split; auto.
  assert (Es : s * (C - D) = - A) by (unfold s; rewrite EAB; field; lra).
  assert (Et : t * (C - D) = C) by (unfold t; field; lra).
  apply pt_ext; rewrite ?along_x, ?along_y; apply Rmult_eq_reg_r with (C - D); try lra.
  - replace ((px a + s * (px b - px a)) * (C - D)) with (px a * (C - D) + (s * (C - D)) * (px b - px a)) by ring.
    replace ((px c + t * (px d - px c)) * (C - D)) with (px c * (C - D) + (t * (C - D)) * (px d - px c)) by ring.
    rewrite Es, Et. unfold A, C, D, turn. ring.
  - replace ((py a + s * (py b - py a)) * (C - D)) with (py a * (C - D) + (s * (C - D)) * (py b - py a)) by ring.
    replace ((py c + t * (py d - py c)) * (C - D)) with (py c * (C - D) + (t * (C - D)) * (py d - py c)) by ring.
    rewrite Es, Et. unfold A, C, D, turn. ring.
Qed.

(** one-dimensional overlap of [a b] and [c d] when c and d are outside [a b] *)
Definition btw (u v q : R) : Prop := u <= q <= v \/ v <= q <= u.
Lemma one_dim : forall a b c d, ~ btw a b c -> ~ btw a b d ->
  (xorb (Rltb a c) (Rltb a d) = true <-> exists z, btw a b z /\ btw c d z).
Proof.
  unfold btw. intros a b c d Hc Hd. split.
  - intros H. exists a. split; [lra|]. destruct (Rltb a c) eqn:E1; destruct (Rltb a d) eqn:E2; try discriminate;
    rewrite ?Rltb_true, ?Rltb_false in *; lra.
  - intros [z Hz]. destruct (Rltb a c) eqn:E1; destruct (Rltb a d) eqn:E2; auto; rewrite ?Rltb_true, ?Rltb_false in *; exfalso; lra.
Qed.

Lemma collinear_param : forall a b q, a <> b -> turn a b q = 0 -> exists t, q = along a b t.
Proof.
  intros a b q Hab H. unfold turn in H. destruct (Req_dec (px b - px a) 0) as [Z|Z].
  - assert (Hn : py b - py a <> 0) by (intros Z2; apply Hab; apply pt_ext; lra).
    exists ((py q - py a) / (py b - py a)). rewrite Z, Rmult_0_l in H.
    assert (Z2 : (px q - px a) * (py b - py a) = 0) by lra. apply Rmult_integral in Z2.
    apply pt_ext; rewrite ?along_x, ?along_y; [rewrite Z; lra|field; auto].
  - exists ((px q - px a) / (px b - px a)). apply pt_ext; rewrite ?along_x, ?along_y; [field; auto|].
    apply Rmult_eq_reg_r with (px b - px a); auto. field_simplify; auto. lra.
Qed.

Lemma collinear_case : forall a b c d, a <> b -> turn a b c = 0 -> turn a b d = 0 -> ~ on_segment c a b -> ~ on_segment d a b ->
  coarse (px c - px a) ->
  ((if Rltb (Rabs (px c - px a)) e100 then xorb (Rltb (py a) (py c)) (Rltb (py a) (py d))
    else xorb (Rltb (px a) (px c)) (Rltb (px a) (px d))) = true <-> share_point a b c d).
Proof.
  intros a b c d Hab Hc Hd Nc Nd Cc.
  destruct (collinear_param a b c Hab Hc) as [tc Ec]. destruct (collinear_param a b d Hab Hd) as [td Ed].
  (* sharing is overlap of the parameter intervals *)
  assert (Ntc : ~ (0 <= tc <= 1)) by (intros G; apply Nc; exists tc; auto).
  assert (Ntd : ~ (0 <= td <= 1)) by (intros G; apply Nd; exists td; auto).
  assert (Hshare : share_point a b c d <-> (tc < 0 /\ 1 < td) \/ (td < 0 /\ 1 < tc)).
  { split.
    - intros [q [[s [Hs Es]] [t [Ht Et]]]]. subst q c d.
      assert (E : s = tc + t * (td - tc)).
      { assert (Ex : (s - (tc + t * (td - tc))) * (px b - px a) = 0).
        { pose proof (f_equal px Et) as Ex. rewrite !along_x in Ex. lra. }
        assert (Ey : (s - (tc + t * (td - tc))) * (py b - py a) = 0).
        { pose proof (f_equal py Et) as Ey. rewrite !along_y in Ey. lra. }
        apply Rmult_integral in Ex, Ey. destruct Ex as [Ex|Ex]; [lra|]. destruct Ey as [Ey|Ey]; [lra|].
        exfalso; apply Hab; apply pt_ext; lra. }
      destruct (Rlt_dec tc 0) as [G1|G1]; destruct (Rlt_dec td 0) as [G2|G2]; try lra.
      + pose proof (Rmult_le_pos t (- td)). pose proof (Rmult_le_pos (1 - t) (- tc)). destruct (Req_dec t 0); [subst t; lra|].
        pose proof (Rmult_lt_0_compat t (- td)). lra.
      + pose proof (Rmult_le_pos t (td - 1)). pose proof (Rmult_le_pos (1 - t) (tc - 1)).
        destruct (Req_dec t 0); [subst t; lra|]. pose proof (Rmult_lt_0_compat t (td - 1)). lra.
    - intros H. exists a. split; [apply on_seg_end1|]. exists ((- tc) / (td - tc)). split.
      + destruct H as [[G1 G2]|[G1 G2]].
        * split; [apply Rmult_le_pos; [lra|left; apply Rinv_0_lt_compat; lra]|].
          apply Rmult_le_reg_r with (td - tc); [lra|]. unfold Rdiv. rewrite Rmult_assoc, Rinv_l, Rmult_1_r by lra. lra.
        * replace ((- tc) / (td - tc)) with (tc / (tc - td)) by (field; lra).
          split; [apply Rmult_le_pos; [lra|left; apply Rinv_0_lt_compat; lra]|].
          apply Rmult_le_reg_r with (tc - td); [lra|]. unfold Rdiv. rewrite Rmult_assoc, Rinv_l, Rmult_1_r by lra. lra.
      + subst c d. apply pt_ext; rewrite ?along_x, ?along_y, ?along_x, ?along_y; field; lra. }
  rewrite Hshare.
  assert (Hside : forall (w : R) (pw : pt -> R), (forall t, pw (along a b t) = pw a + t * w) -> w <> 0 ->
     (xorb (Rltb (pw a) (pw c)) (Rltb (pw a) (pw d)) = true <-> (tc < 0 /\ 1 < td) \/ (td < 0 /\ 1 < tc))).
  { intros w pw Hpw Hw. rewrite Ec, Ed, !Hpw.
    assert (Sg : forall t, Rltb (pw a) (pw a + t * w) = true <-> 0 < t * w) by (intros t; rewrite Rltb_true; lra).
    destruct (Rlt_dec 0 w) as [Pw|Pw].
    - assert (S2 : forall t, 0 < t * w <-> 0 < t).
      { intros t; split; intros G; [apply Rmult_lt_reg_r with w; lra|apply Rmult_lt_0_compat; auto]. }
      pose proof (Sg tc) as K1. pose proof (Sg td) as K2. rewrite S2 in K1, K2.
      destruct (Rltb (pw a) (pw a + tc * w)), (Rltb (pw a) (pw a + td * w)); simpl; split; intros G; try discriminate; auto.
      + exfalso. assert (0 < tc) by (apply K1; auto). assert (0 < td) by (apply K2; auto). lra.
      + right. assert (0 < tc) by (apply K1; auto). assert (~ 0 < td) by (intros W; apply K2 in W; discriminate). lra.
      + left. assert (0 < td) by (apply K2; auto). assert (~ 0 < tc) by (intros W; apply K1 in W; discriminate). lra.
      + exfalso. assert (~ 0 < tc) by (intros W; apply K1 in W; discriminate). assert (~ 0 < td) by (intros W; apply K2 in W; discriminate). lra.
    - assert (S2 : forall t, 0 < t * w <-> t < 0).
      { intros t; split; intros G.
        - apply Ropp_lt_cancel. rewrite Ropp_0. apply Rmult_lt_reg_r with (- w); lra.
        - replace (t * w) with ((- t) * (- w)) by ring. apply Rmult_lt_0_compat; lra. }
      pose proof (Sg tc) as K1. pose proof (Sg td) as K2. rewrite S2 in K1, K2.
      destruct (Rltb (pw a) (pw a + tc * w)), (Rltb (pw a) (pw a + td * w)); simpl; split; intros G; try discriminate; auto.
      + exfalso. assert (tc < 0) by (apply K1; auto). assert (td < 0) by (apply K2; auto). lra.
      + left. assert (tc < 0) by (apply K1; auto). assert (~ td < 0) by (intros W; apply K2 in W; discriminate). lra.
      + right. assert (td < 0) by (apply K2; auto). assert (~ tc < 0) by (intros W; apply K1 in W; discriminate). lra.
      + exfalso. assert (~ tc < 0) by (intros W; apply K1 in W; discriminate). assert (~ td < 0) by (intros W; apply K2 in W; discriminate). lra. }
  destruct (Rltb (Rabs (px c - px a)) e100) eqn:E.
  - apply (coarse_small _ Cc) in E. assert (Zx : px b - px a = 0).
    { pose proof (f_equal px Ec) as Ex. rewrite along_x in Ex. assert (Z : tc * (px b - px a) = 0) by lra. apply Rmult_integral in Z. destruct Z; auto. lra. }
    apply (Hside (py b - py a) py); [intros; apply along_y|]. intros Z; apply Hab; apply pt_ext; lra.
  - apply (Hside (px b - px a) px); [intros; apply along_x|]. intros Z.
    assert (px c - px a = 0) by (pose proof (f_equal px Ec) as Ex; rewrite along_x, Z in Ex; lra).
    apply (coarse_small _ Cc) in H. congruence.
Qed.


Lemma bool_sign : forall x y, Bool.eqb (Rltb 0 x) (Rltb 0 y) = true <-> (0 < x <-> 0 < y).
Proof.
  intros. rewrite eqb_true_iff. rewrite <- !Rltb_true. destruct (Rltb 0 x), (Rltb 0 y); intuition discriminate.
Qed.

Lemma segments_main : forall a b c d : pt, a <> b -> coarse_for a b c -> coarse_for a b d ->
  (~ touch a b c d -> (segmentsIntersect ROps e100 a b c d = true <-> share_point a b c d)) /\
  (touch a b c d -> share_point a b c d /\ (segmentsIntersect ROps e100 a b c d = true <-> 0 < turn c d a \/ 0 < turn c d b)).
Proof.
  intros a b c d Hab Fc Fd. pose proof Fc as [Cc [Ccx _]]. pose proof Fd as [Cd _].
  rewrite intersect_unfold. cbv zeta.
  pose proof (coarse_small _ Cc) as SC. pose proof (coarse_small _ Cd) as SD. pose proof (coarse_big _ Cc) as BC. pose proof (coarse_big _ Cd) as BD.
  destruct (Rltb (Rabs (turn a b c)) e100) eqn:E1.
  - assert (Zc : turn a b c = 0) by (apply SC; auto). pose proof (within_R a b c Hab Zc Fc) as Wc.
    split; [intros _|intros [[T|T] _]; lra].
    destruct (within a b c) eqn:E2.
    { split; auto. intros _. apply (share_at _ _ _ _ c); [apply Wc; auto|apply on_seg_end1]. }
    assert (Nc : ~ on_segment c a b) by (rewrite <- Wc; congruence).
    destruct (Rltb e100 (Rabs (turn a b d))) eqn:E3.
    { assert (Nd : turn a b d <> 0) by (apply BD; auto). split; [discriminate|]. intros S. apply share_sign in S.
      destruct S as [t [Ht [Et Hs]]]. rewrite Zc in Et. assert (Et2 : t * turn a b d = 0) by lra. apply Rmult_integral in Et2.
      destruct Et2 as [Et2|Et2]; [|contradiction]. exfalso. apply Nc. replace c with (along c d t); auto.
      apply pt_ext; rewrite ?along_x, ?along_y, Et2; ring. }
    assert (Zd : turn a b d = 0).
    { destruct (Req_dec (turn a b d) 0) as [Z|Z]; auto. apply BD in Z. congruence. }
    replace (Rltb (Rabs (turn a b d)) e100) with true by (symmetry; apply SD; auto).
    pose proof (within_R a b d Hab Zd Fd) as Wd. destruct (within a b d) eqn:E4.
    { split; auto. intros _. apply (share_at _ _ _ _ d); [apply Wd; auto|apply on_seg_end2]. }
    assert (Nd : ~ on_segment d a b) by (rewrite <- Wd; congruence).
    assert (E5 : Rltb e100 (Rabs (turn a b c)) = false) by (apply not_true_iff_false; rewrite BC; lra). rewrite E5.
    apply collinear_case; auto.
  - assert (Nzc : turn a b c <> 0) by (intros Z; apply SC in Z; congruence).
    destruct (Rltb (Rabs (turn a b d)) e100) eqn:E3.
    + assert (Zd : turn a b d = 0) by (apply SD; auto). pose proof (within_R a b d Hab Zd Fd) as Wd.
      split; [intros _|intros [[T|T] _]; lra].
      destruct (within a b d) eqn:E4.
      { split; auto. intros _. apply (share_at _ _ _ _ d); [apply Wd; auto|apply on_seg_end2]. }
      assert (Nd : ~ on_segment d a b) by (rewrite <- Wd; congruence).
      replace (Rltb e100 (Rabs (turn a b c))) with true by (symmetry; apply BC; auto).
      split; [discriminate|]. intros S. apply share_sign in S. destruct S as [t [Ht [Et Hs]]]. rewrite Zd in Et.
      assert (Et2 : (1 - t) * turn a b c = 0) by lra. apply Rmult_integral in Et2. destruct Et2 as [Et2|Et2]; [|contradiction].
      exfalso. apply Nd. replace d with (along c d t); auto. apply pt_ext; rewrite ?along_x, ?along_y; replace t with 1 by lra; ring.
    + assert (Nzd : turn a b d <> 0) by (intros Z; apply SD in Z; congruence).
      destruct (Bool.eqb (Rltb 0 (turn a b c)) (Rltb 0 (turn a b d))) eqn:E4.
      * apply bool_sign in E4. split; [intros _|intros [[T|T] _]; exfalso; lra].
        split; [discriminate|]. intros S. apply share_sign in S. destruct S as [t [Ht [Et _]]]. exfalso.
        destruct (Rlt_dec 0 (turn a b c)) as [G|G].
        -- assert (G2 : 0 < turn a b d) by (apply E4; auto). pose proof (Rmult_le_pos t (turn a b d)). pose proof (Rmult_le_pos (1 - t) (turn a b c)).
           destruct (Req_dec t 0); [subst t; lra|]. pose proof (Rmult_lt_0_compat t (turn a b d)). lra.
        -- assert (G2 : turn a b d < 0) by (destruct (Rlt_dec 0 (turn a b d)); [exfalso; apply G, E4; auto|lra]).
           pose proof (Rmult_le_pos t (- turn a b d)). pose proof (Rmult_le_pos (1 - t) (- turn a b c)).
           destruct (Req_dec t 0); [subst t; lra|]. pose proof (Rmult_lt_0_compat t (- turn a b d)). lra.
      * assert (Hop : turn a b c < 0 < turn a b d \/ turn a b d < 0 < turn a b c).
        { apply not_true_iff_false in E4. rewrite bool_sign in E4.
          destruct (Rlt_dec 0 (turn a b c)); destruct (Rlt_dec 0 (turn a b d)); try (exfalso; apply E4; split; intros; lra); lra. }
        assert (EAB : turn c d a - turn c d b = turn a b d - turn a b c) by (unfold turn; ring).
        assert (Hx : xorb (Rltb 0 (turn c d a)) (Rltb 0 (turn c d b)) = true <->
                     (0 < turn c d a /\ turn c d b <= 0) \/ (0 < turn c d b /\ turn c d a <= 0)).
        { destruct (Rltb 0 (turn c d a)) eqn:F1; destruct (Rltb 0 (turn c d b)) eqn:F2; simpl; rewrite ?Rltb_true, ?Rltb_false in *;
            split; intros; auto; try discriminate; lra. }
        rewrite Hx. split.
        -- intros NT. assert (N0 : turn c d a <> 0 /\ turn c d b <> 0).
           { split; intros Z; apply NT; split; auto. }
           split.
           ++ intros H. apply cross_point; [lra|destruct Hop; [left|right]; lra|destruct H; [right|left]; lra].
           ++ intros [q [Hq1 Hq2]]. assert (S' : share_point c d a b) by (exists q; auto).
              apply share_sign in S'. destruct S' as [t [Ht [Et _]]].
              destruct (Rlt_dec 0 (turn c d a)) as [G|G].
              ** left. split; auto. destruct (Rle_dec (turn c d b) 0); auto. exfalso.
                 pose proof (Rmult_le_pos t (turn c d b)). pose proof (Rmult_le_pos (1 - t) (turn c d a)).
                 destruct (Req_dec t 0); [subst t; lra|]. pose proof (Rmult_lt_0_compat t (turn c d b)). lra.
              ** right. split; [|lra]. destruct (Rlt_dec 0 (turn c d b)); auto. exfalso.
                 pose proof (Rmult_le_pos t (- turn c d b)). pose proof (Rmult_le_pos (1 - t) (- turn c d a)).
                 destruct (Req_dec t 0); [subst t; lra|]. pose proof (Rmult_lt_0_compat t (- turn c d b)). lra.
        -- intros [_ T]. split.
           ++ apply cross_point; [lra|destruct Hop; [left|right]; lra|]. destruct T as [T|T]; rewrite T;
              [destruct (Rle_dec 0 (turn c d b)); [left|right]; lra|destruct (Rle_dec 0 (turn c d a)); [right|left]; lra].
           ++ destruct T as [T|T]; rewrite T in *; lra.
Qed.

Lemma grid_coarse : forall n : Z, coarse (IZR n * / 10 ^ 98).
Proof.
  intros n. destruct (Z.eq_dec n 0) as [->|N]; [left; ring|]. right. rewrite Rabs_mult.
  assert (Hp : 0 < / 10 ^ 98) by (apply Rinv_0_lt_compat, pow_lt; lra).
  rewrite (Rabs_right (/ 10 ^ 98)) by lra.
  assert (H1 : 1 <= Rabs (IZR n)) by (rewrite <- abs_IZR; apply IZR_le; lia).
  apply Rlt_le_trans with (1 * / 10 ^ 98); [|apply Rmult_le_compat_r; lra].
  unfold e100. replace (10 ^ 100) with (10 ^ 98 * 100) by (change 100%nat with (98 + 2)%nat; rewrite pow_add; ring).
  rewrite Rinv_mult. lra.
Qed.
Lemma pow49 : / 10 ^ 49 * / 10 ^ 49 = / 10 ^ 98.
Proof. rewrite <- Rinv_mult. f_equal. rewrite <- pow_add. reflexivity. Qed.
Lemma grid_coarse1 : forall n : Z, coarse (IZR n * / 10 ^ 49).
Proof.
  intros n. assert (E : IZR n * / 10 ^ 49 = IZR (n * 10 ^ 49) * / 10 ^ 98).
  { rewrite <- pow49, mult_IZR, <- Rmult_assoc. f_equal. rewrite Rmult_assoc.
    replace (IZR (10 ^ 49)) with (10 ^ 49) by (rewrite pow_IZR; f_equal; rewrite <- Zpower_nat_Z; reflexivity).
    rewrite Rinv_r; [ring|]. apply pow_nonzero. lra. }
  rewrite E. apply grid_coarse.
Qed.
Lemma on_grid_coarse : forall a b q, on_grid a -> on_grid b -> on_grid q -> coarse_for a b q.
Proof.
  intros a b q [i1 [j1 [X1 Y1]]] [i2 [j2 [X2 Y2]]] [i3 [j3 [X3 Y3]]]. unfold coarse_for.
  assert (D : forall u v, IZR u * / 10 ^ 49 - IZR v * / 10 ^ 49 = IZR (u - v) * / 10 ^ 49) by (intros; rewrite minus_IZR; ring).
  unfold turn. rewrite X1, X2, X3, Y1, Y2, Y3, !D. split; [|repeat split; apply grid_coarse1].
  replace (_ - _) with (IZR ((i2 - i1) * (j3 - j1) - (i3 - i1) * (j2 - j1)) * (/ 10 ^ 49 * / 10 ^ 49)) by (rewrite minus_IZR, !mult_IZR; ring).
  rewrite pow49. apply grid_coarse.
Qed.

(** proper crossings *)
Lemma proper_signs : forall a b c d, cross_properly a b c d ->
  (turn a b c < 0 < turn a b d \/ turn a b d < 0 < turn a b c) /\ (turn c d a < 0 < turn c d b \/ turn c d b < 0 < turn c d a).
Proof.
  intros a b c d [s [t [Hs [Ht [E N]]]]].
  assert (E1 : turn a b c + t * (turn a b d - turn a b c) = 0) by (rewrite <- turn_along, <- E; unfold turn; rewrite along_x, along_y; ring).
  assert (E2 : turn c d a + s * (turn c d b - turn c d a) = 0) by (rewrite <- turn_along, E; unfold turn; rewrite along_x, along_y; ring).
  assert (EAB : turn c d a - turn c d b = turn a b d - turn a b c) by (unfold turn; ring).
  set (C := turn a b c) in *. set (D := turn a b d) in *. set (A := turn c d a) in *. set (B := turn c d b) in *.
  clearbody A B C D. split.
  - destruct (Rlt_dec C 0); [left|right].
    + split; auto. destruct (Rlt_dec 0 D); auto. exfalso. pose proof (Rmult_le_pos t (- D)). pose proof (Rmult_lt_0_compat (1 - t) (- C)). lra.
    + assert (C <> 0) by (intros Z; subst C; assert (Z2 : t * D = 0) by lra; apply Rmult_integral in Z2; lra).
      split; [|lra]. destruct (Rlt_dec D 0); auto. exfalso. pose proof (Rmult_le_pos t D). pose proof (Rmult_lt_0_compat (1 - t) C). lra.
  - destruct (Rlt_dec A 0); [left|right].
    + split; auto. destruct (Rlt_dec 0 B); auto. exfalso. pose proof (Rmult_le_pos s (- B)). pose proof (Rmult_lt_0_compat (1 - s) (- A)). lra.
    + assert (A <> 0) by (intros Z; subst A; assert (Z2 : s * B = 0) by lra; apply Rmult_integral in Z2; lra).
      split; [|lra]. destruct (Rlt_dec B 0); auto. exfalso. pose proof (Rmult_le_pos s B). pose proof (Rmult_lt_0_compat (1 - s) A). lra.
Qed.

Lemma proper_detected : forall a b c d, cross_properly a b c d -> e100 <= Rabs (turn a b c) -> e100 <= Rabs (turn a b d) ->
  segmentsIntersect ROps e100 a b c d = true.
Proof.
  intros a b c d H H1 H2. apply proper_signs in H. destruct H as [HC HA]. rewrite intersect_unfold. cbv zeta.
  replace (Rltb (Rabs (turn a b c)) e100) with false by (symmetry; apply Rltb_false; lra).
  replace (Rltb (Rabs (turn a b d)) e100) with false by (symmetry; apply Rltb_false; lra).
  replace (Bool.eqb (Rltb 0 (turn a b c)) (Rltb 0 (turn a b d))) with false.
  - destruct (Rltb 0 (turn c d a)) eqn:F1; destruct (Rltb 0 (turn c d b)) eqn:F2; auto; rewrite ?Rltb_true, ?Rltb_false in *; lra.
  - symmetry. apply not_true_iff_false. rewrite bool_sign. intros G. destruct HC; [assert (0 < turn a b c) by (apply G; lra)|assert (0 < turn a b d) by (apply G; lra)]; lra.
Qed.

(** bounding boxes *)
Lemma bb_R : forall p a b : pt, pointInSegmentBB ROps p a b = true <->
  Rmin (px a) (px b) <= px p <= Rmax (px a) (px b) /\ Rmin (py a) (py b) <= py p <= Rmax (py a) (py b).
Proof.
  intros. unfold pointInSegmentBB. change (vx p) with (px p). change (vy p) with (py p). change (vx a) with (px a). change (vy a) with (py a).
  change (vx b) with (px b). change (vy b) with (py b). rewrite !andb_true_iff, !leb_R, !geb_R, !fmin_R, !fmax_R. lra.
Qed.
Lemma bb_segment : forall p a b, on_segment p a b -> pointInSegmentBB ROps p a b = true.
Proof.
  intros p a b H. apply seg_between in H. apply bb_R. unfold Rmin, Rmax. destruct (Rle_dec (px a) (px b)), (Rle_dec (py a) (py b)); lra.
Qed.
