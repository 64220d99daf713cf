(** Scalar helpers: limit, map, val2jet (C51). *)
From Coq Require Import String.
From Coq Require Import List Arith ZArith NArith Bool Lia.
From Coq Require Import Reals Lra Psatz.
From Verif Require Import Base GeometryModel GeometrySpec.
Import ListNotations.
Local Open Scope R_scope.

Lemma limit_R : forall x lo hi : R, lo <= hi -> limit ROps x lo hi = Rmax lo (Rmin hi x).
Proof.
  intros x lo hi H. unfold limit. change (ltb ROps) with Rltb. unfold gtb. change (ltb ROps) with Rltb.
  destruct (Rltb x lo) eqn:E1; [apply Rltb_true in E1|apply Rltb_false in E1; destruct (Rltb hi x) eqn:E2; [apply Rltb_true in E2|apply Rltb_false in E2]];
  unfold Rmax, Rmin; repeat destruct (Rle_dec _ _); lra.
Qed.

Lemma map_R : forall x a b c d : R, a <> b -> umap ROps x a b c d = Ok ((x - a) * (d - c) / (b - a) + c).
Proof. intros. unfold umap. cbn [div ROps sub mul add]. rewrite Rdivr_ok by lra. reflexivity. Qed.
Lemma map_degenerate : forall x a c d : R, is_nonfin (umap ROps x a a c d).
Proof.
  intros. unfold umap. cbn [div ROps sub mul add]. replace (a - a) with 0 by ring.
  destruct (Rdivr_zero ((x - a) * (d - c))) as [s E]. toR. rewrite E. eexists; reflexivity.
Qed.
Lemma map_back : forall x a b c d y : R, a <> b -> c <> d -> umap ROps x a b c d = Ok y -> umap ROps y c d a b = Ok x.
Proof.
  intros x a b c d y H1 H2 H. rewrite map_R in H by auto. inversion H; subst y. rewrite map_R by auto. f_equal. toR. field. lra.
Qed.

Lemma jet_R : forall v lo hi : R, lo < hi -> val2jet ROps v lo hi = Ok (jet (position v lo hi)).
Proof.
  intros v lo hi H. unfold val2jet, two. cbn [div ROps ofZ one]. rewrite !Rdivr_ok by lra. cbn [bind].
  cbv zeta. cbn [add sub mul ROps zero]. unfold gtb. change (ltb ROps) with Rltb. change (T ROps) with R in *.
  match goal with |- context [Rltb ?x (lo + 1 / 4 * (hi - lo))] => set (w := x) end.
  assert (Hw : w = Rmax lo (Rmin hi v)).
  { unfold w.
    destruct (Rltb v lo) eqn:E1; [apply Rltb_true in E1|apply Rltb_false in E1];
    match goal with |- context [Rltb hi ?z] => destruct (Rltb hi z) eqn:E2; [apply Rltb_true in E2|apply Rltb_false in E2] end;
    unfold Rmax, Rmin; repeat destruct (Rle_dec _ _); lra. }
  assert (Hb : lo <= w <= hi) by (rewrite Hw; unfold Rmax, Rmin; repeat destruct (Rle_dec _ _); lra).
  set (u := (w - lo) / (hi - lo)).
  assert (Eu : w = lo + u * (hi - lo)) by (unfold u; field; lra).
  assert (Hp : position v lo hi = u).
  { unfold position, clamp01. unfold u. rewrite Hw.
    assert (Hd : 0 < / (hi - lo)) by (apply Rinv_0_lt_compat; lra).
    destruct (Rle_dec hi v) as [A|A].
    - rewrite (Rmin_left hi v), (Rmax_right lo hi) by lra. replace ((hi - lo) / (hi - lo)) with 1 by (field; lra).
      assert (1 <= (v - lo) / (hi - lo)).
      { apply Rmult_le_reg_r with (hi - lo); [lra|]. unfold Rdiv. rewrite Rmult_assoc, Rinv_l, Rmult_1_r by lra. lra. }
      rewrite Rmin_left, Rmax_right by lra. auto.
    - assert ((v - lo) / (hi - lo) <= 1).
      { apply Rmult_le_reg_r with (hi - lo); [lra|]. unfold Rdiv. rewrite Rmult_assoc, Rinv_l, Rmult_1_r by lra. lra. }
      rewrite (Rmin_right 1) by lra. rewrite (Rmin_right hi v) by lra. destruct (Rle_dec lo v) as [B|B].
      + rewrite (Rmax_right lo v) by lra. rewrite Rmax_right; auto. apply Rmult_le_pos; lra.
      + rewrite (Rmax_left lo v) by lra. replace ((lo - lo) / (hi - lo)) with 0 by (field; lra). apply Rmax_left.
        replace ((v - lo) / (hi - lo)) with (- ((lo - v) * / (hi - lo))) by (field; lra).
        assert (0 <= (lo - v) * / (hi - lo)) by (apply Rmult_le_pos; lra). lra. }
  rewrite Hp. clear Hp. assert (Hu : 0 <= u <= 1).
  { unfold u. split; [apply Rmult_le_pos; [lra|left; apply Rinv_0_lt_compat; lra]|].
    apply Rmult_le_reg_r with (hi - lo); [lra|]. unfold Rdiv. rewrite Rmult_assoc, Rinv_l, Rmult_1_r by lra. lra. }
  assert (Hcmp : forall k, Rltb w (lo + k * (hi - lo)) = true <-> u < k).
  { intros k. rewrite Rltb_true, Eu. split; intros G.
    - apply Rmult_lt_reg_r with (hi - lo); lra.
    - apply Rplus_lt_compat_l. apply Rmult_lt_compat_r; lra. }
  assert (Hcmp' : forall k, Rltb w (lo + k * (hi - lo)) = false <-> k <= u).
  { intros k. rewrite <- not_true_iff_false, Hcmp. lra. }
  clearbody u. clearbody w. 
  assert (J : forall b g r b' g' r' : R, b = b' -> g = g' -> r = r' -> (@Ok (R * R * R) (b, g, r)) = Ok (b', g', r')) by (intros; subst; auto).
  unfold jet, clamp01.
  destruct (Rltb w (lo + 1 / 4 * (hi - lo))) eqn:E1; [apply Hcmp in E1|apply Hcmp' in E1;
    destruct (Rltb w (lo + 1 / 2 * (hi - lo))) eqn:E2; [apply Hcmp in E2|apply Hcmp' in E2;
      destruct (Rltb w (lo + 3 / 4 * (hi - lo))) eqn:E3; [apply Hcmp in E3|apply Hcmp' in E3]]];
  rewrite !Rdivr_ok by lra; cbn [bind]; apply J.
  - unfold Rmax, Rmin; repeat destruct (Rle_dec _ _); lra.
  - replace (4 * (w - lo) / (hi - lo)) with (4 * u) by (rewrite Eu; field; lra). unfold Rmax, Rmin; repeat destruct (Rle_dec _ _); lra.
  - unfold Rmax, Rmin; repeat destruct (Rle_dec _ _); lra.
  - replace (4 * (lo + 1 / 4 * (hi - lo) - w) / (hi - lo)) with (1 - 4 * u) by (rewrite Eu; field; lra). unfold Rmax, Rmin; repeat destruct (Rle_dec _ _); lra.
  - unfold Rmax, Rmin; repeat destruct (Rle_dec _ _); lra.
  - unfold Rmax, Rmin; repeat destruct (Rle_dec _ _); lra.
  - unfold Rmax, Rmin; repeat destruct (Rle_dec _ _); lra.
  - unfold Rmax, Rmin; repeat destruct (Rle_dec _ _); lra.
  - replace (4 * (w - lo - 1 / 2 * (hi - lo)) / (hi - lo)) with (4 * u - 2) by (rewrite Eu; field; lra). unfold Rmax, Rmin; repeat destruct (Rle_dec _ _); lra.
  - unfold Rmax, Rmin; repeat destruct (Rle_dec _ _); lra.
  - replace (4 * (lo + 3 / 4 * (hi - lo) - w) / (hi - lo)) with (3 - 4 * u) by (rewrite Eu; field; lra). unfold Rmax, Rmin; repeat destruct (Rle_dec _ _); lra.
  - unfold Rmax, Rmin; repeat destruct (Rle_dec _ _); lra.
Qed.

Lemma clamp_mid : forall x, 0 <= x <= 1 -> clamp01 x = x.
Proof. intros. unfold clamp01. rewrite Rmin_right, Rmax_right by lra. auto. Qed.
Lemma clamp_hi : forall x, 1 <= x -> clamp01 x = 1.
Proof. intros. unfold clamp01. rewrite Rmin_left, Rmax_right by lra. auto. Qed.
Lemma clamp_lo : forall x, x <= 0 -> clamp01 x = 0.
Proof. intros. unfold clamp01. rewrite Rmin_right, Rmax_left by lra. auto. Qed.
Lemma jet_vals : forall u, 0 <= u <= 1 ->
  (u <= 1/4 /\ jet u = (255 * 1, 255 * (4 * u), 255 * 0)) \/ (1/4 <= u <= 1/2 /\ jet u = (255 * (2 - 4 * u), 255 * 1, 255 * 0)) \/
  (1/2 <= u <= 3/4 /\ jet u = (255 * 0, 255 * 1, 255 * (4 * u - 2))) \/ (3/4 <= u /\ jet u = (255 * 0, 255 * (4 - 4 * u), 255 * 1)).
Proof.
  intros u H. unfold jet. destruct (Rle_dec u (1/4)); [left|right; destruct (Rle_dec u (1/2)); [left|right; destruct (Rle_dec u (3/4)); [left|right]]];
  (split; [lra|]).
  - rewrite (clamp_hi (2 - 4 * u)), Rmin_left, (clamp_mid (4 * u)), (clamp_lo (4 * u - 2)) by lra. auto.
  - rewrite (clamp_mid (2 - 4 * u)), (clamp_hi (Rmin _ _)), (clamp_lo (4 * u - 2)) by (try apply Rmin_glb; lra). auto.
  - rewrite (clamp_lo (2 - 4 * u)), (clamp_hi (Rmin _ _)), (clamp_mid (4 * u - 2)) by (try apply Rmin_glb; lra). auto.
  - rewrite (clamp_lo (2 - 4 * u)), Rmin_right, (clamp_mid (4 - 4 * u)), (clamp_hi (4 * u - 2)) by lra. auto.
Qed.
Lemma jet_injective : forall u w, 0 <= u <= 1 -> 0 <= w <= 1 -> jet u = jet w -> u = w.
Proof.
  intros u w Hu Hw H.
  destruct (jet_vals u Hu) as [[A E]|[[A E]|[[A E]|[A E]]]]; destruct (jet_vals w Hw) as [[B F]|[[B F]|[[B F]|[B F]]]];
  rewrite E, F in H; injection H; intros; lra.
Qed.

Lemma jet_range : forall u b g r, jet u = (b, g, r) -> 0 <= b <= 255 /\ 0 <= g <= 255 /\ 0 <= r <= 255.
Proof.
  intros u b g r H. unfold jet in H. inversion H. clear H.
  assert (C : forall x, 0 <= clamp01 x <= 1) by (intros; unfold clamp01, Rmax, Rmin; repeat destruct (Rle_dec _ _); lra).
  pose proof (C (2 - 4 * u)). pose proof (C (Rmin (4 * u) (4 - 4 * u))). pose proof (C (4 * u - 2)). lra.
Qed.

Lemma position_range : forall v lo hi, 0 <= position v lo hi <= 1.
Proof.
  intros v lo hi. unfold position, clamp01. generalize ((v - lo) / (hi - lo)). intros t.
  destruct (Rle_dec 1 t); [rewrite Rmin_left, Rmax_right by lra|rewrite Rmin_right by lra; destruct (Rle_dec 0 t); [rewrite Rmax_right by lra|rewrite Rmax_left by lra]]; lra.
Qed.
Lemma position_in : forall v lo hi, lo < hi -> lo <= v <= hi -> position v lo hi * (hi - lo) = v - lo.
Proof.
  intros v lo hi H Hv. unfold position, clamp01. assert (0 <= (v - lo) / (hi - lo) <= 1).
  { split; [apply Rmult_le_pos; [lra|left; apply Rinv_0_lt_compat; lra]|].
    apply Rmult_le_reg_r with (hi - lo); [lra|]. unfold Rdiv. rewrite Rmult_assoc, Rinv_l, Rmult_1_r by lra. lra. }
  rewrite Rmin_right, Rmax_right by lra. field. lra.
Qed.

Lemma jet_distinct : forall v w lo hi : R, lo < hi -> lo <= v <= hi -> lo <= w <= hi ->
  val2jet ROps v lo hi = val2jet ROps w lo hi -> v = w.
Proof.
  intros v w lo hi H Hv Hw E. rewrite !jet_R in E by auto. inversion E as [E1].
  assert (EE : jet (position v lo hi) = jet (position w lo hi)) by (inversion E; congruence).
  apply jet_injective in EE; try apply position_range.
  pose proof (position_in v lo hi H Hv) as P1. pose proof (position_in w lo hi H Hw) as P2. rewrite EE, P2 in P1. clear - P1. lra.
Qed.

Lemma jet_degenerate : forall v lo : R, is_nonfin (val2jet ROps v lo lo).
Proof.
  intros v lo. unfold val2jet, two. cbn [div ROps ofZ one]. rewrite !Rdivr_ok by lra. cbn [bind].
  cbn [add sub mul ROps zero].
  assert (G : forall n : R, is_nonfin (Rdivr n (lo - lo))) by (intros; replace (lo - lo) with 0 by ring; apply Rdivr_zero).
  repeat match goal with |- context [if ?c then _ else _] => destruct c end;
  match goal with |- is_nonfin (bind (Rdivr ?n ?d) _) => destruct (G n) as [s E]; rewrite E; eexists; reflexivity end.
Qed.
