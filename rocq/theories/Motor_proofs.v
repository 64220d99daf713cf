(** The motor drawing, in exact arithmetic. *)
From Coq Require Import String.
From Coq Require Import List Arith ZArith NArith Bool Lia.
From Coq Require Import Reals Lra.
From Verif Require Import Base SumR GeometryModel GeometrySpec Geometry_proofs DrawingModel DrawingSpec DrawingR_proofs PlaneSpec ExampleModel ExampleSpec Example_proofs.
Import ListNotations.
Local Open Scope R_scope.

Lemma even_mod : forall i, Nat.eqb (i mod 2) 0 = Nat.even i.
Proof.
  intros i. destruct (Nat.even i) eqn:E.
  - apply Nat.even_spec in E. destruct E as [m ->]. rewrite Nat.mul_comm, Nat.mod_mul by lia. reflexivity.
  - assert (O : Nat.odd i = true) by (unfold Nat.odd; rewrite E; reflexivity). apply Nat.odd_spec in O. destruct O as [m ->].
    replace (2 * m + 1)%nat with (1 + m * 2)%nat by lia. rewrite Nat.mod_add by lia. reflexivity.
Qed.
Section Motor.
Variable mat : Type.
Variables iron air : mat.
Variable lm : libm ROps.
Hypothesis EX : exact_libm lm.
Notation pol := (polar ROps lm).
Lemma pol_eq : forall r t, pol r t = P (r * cos t) (r * sin t).
Proof. destruct EX as (S & C & _). intros. unfold polar. rewrite S, C. reflexivity. Qed.
Lemma cross_pol : forall r t r' t', r * cos t * (r' * sin t') - r' * cos t' * (r * sin t) = r * r' * sin (t' - t).
Proof. intros. rewrite sin_minus. ring. Qed.

(** ** Areas and seeds of the coil sides *)
Definition left_side (s e u w : R) : list pt := [pol s u; pol s (u - w); pol e (u - w); pol e u].
Definition right_side (s e u w : R) : list pt := [pol s u; pol s (u + w); pol e (u + w); pol e u].
Lemma left_area : forall s e u w, twice_area (left_side s e u w) = (e * e - s * s) * sin w.
Proof.
  intros. unfold left_side, twice_area. cbn [edges combine app map fold_right fst snd]. rewrite !pol_eq, !px_P, !py_P, !cross_pol.
  replace (u - w - u) with (- w) by ring. replace (u - w - (u - w)) with 0 by ring. replace (u - (u - w)) with w by ring. replace (u - u) with 0 by ring.
  rewrite sin_neg, sin_0. ring.
Qed.
Lemma right_area : forall s e u w, twice_area (right_side s e u w) = - ((e * e - s * s) * sin w).
Proof.
  intros. unfold right_side, twice_area. cbn [edges combine app map fold_right fst snd]. rewrite !pol_eq, !px_P, !py_P, !cross_pol.
  replace (u + w - u) with w by ring. replace (u + w - (u + w)) with 0 by ring. replace (u - (u + w)) with (- w) by ring. replace (u - u) with 0 by ring.
  rewrite sin_neg, sin_0. ring.
Qed.
Lemma side_pol : forall a ta b tb q tq, side (pol a ta) (pol b tb) (pol q tq) = a * b * sin (tb - ta) + b * q * sin (tq - tb) + q * a * sin (ta - tq).
Proof. intros. unfold side. rewrite !pol_eq, !px_P, !py_P, !sin_minus. ring. Qed.
Lemma sin_2PI_turn : forall x, sin (x + 2 * PI) = sin x.
Proof. intros. rewrite <- (sin_period x 1). f_equal. cbn [INR]. ring. Qed.
Lemma cos_2PI_turn : forall x, cos (x + 2 * PI) = cos x.
Proof. intros. rewrite <- (cos_period x 1). f_equal. cbn [INR]. ring. Qed.
Lemma sin_double : forall w, sin w = 2 * (sin (w / 2) * cos (w / 2)).
Proof. intros. replace w with (w / 2 + w / 2) at 1 by field. rewrite sin_plus. ring. Qed.
Lemma left_inside : forall s e u w, 0 < s < e -> 0 < w < PI ->
  (inside_convex (pol ((e - s) / 2 + s) (u - w / 2)) (left_side s e u w) <-> (s + e) / 2 < e * cos (w / 2)).
Proof.
  intros s e u w SE W. set (r := (e - s) / 2 + s). assert (RS : s < r < e) by (unfold r; lra).
  assert (SN : 0 < sin (w / 2)) by (apply sin_gt_0; lra).
  assert (E1 : side (pol s u) (pol s (u - w)) (pol r (u - w / 2)) = 2 * s * sin (w / 2) * (r - s * cos (w / 2))).
  { rewrite side_pol. replace (u - w - u) with (- w) by ring. replace (u - w / 2 - (u - w)) with (w / 2) by field. replace (u - (u - w / 2)) with (w / 2) by ring.
    rewrite sin_neg, (sin_double w). ring. }
  assert (E2 : side (pol s (u - w)) (pol e (u - w)) (pol r (u - w / 2)) = r * (e - s) * sin (w / 2)).
  { rewrite side_pol. replace (u - w - (u - w)) with 0 by ring. replace (u - w / 2 - (u - w)) with (w / 2) by field. replace (u - w - (u - w / 2)) with (- (w / 2)) by field.
    rewrite sin_0, sin_neg. ring. }
  assert (E3 : side (pol e (u - w)) (pol e u) (pol r (u - w / 2)) = 2 * e * sin (w / 2) * (e * cos (w / 2) - r)).
  { rewrite side_pol. replace (u - (u - w)) with w by ring. replace (u - w / 2 - u) with (- (w / 2)) by ring. replace (u - w - (u - w / 2)) with (- (w / 2)) by field.
    rewrite sin_neg, (sin_double w). ring. }
  assert (E4 : side (pol e u) (pol s u) (pol r (u - w / 2)) = r * (e - s) * sin (w / 2)).
  { rewrite side_pol. replace (u - u) with 0 by ring. replace (u - w / 2 - u) with (- (w / 2)) by ring. replace (u - (u - w / 2)) with (w / 2) by ring.
    rewrite sin_0, sin_neg. ring. }
  assert (P2 : 0 < r * (e - s) * sin (w / 2)) by (repeat apply Rmult_lt_0_compat; lra).
  assert (P1 : 0 < 2 * s * sin (w / 2)) by (repeat apply Rmult_lt_0_compat; lra).
  assert (P3 : 0 < 2 * e * sin (w / 2)) by (repeat apply Rmult_lt_0_compat; lra).
  assert (CB : s * cos (w / 2) <= s) by (pose proof (COS_bound (w / 2)); rewrite <- (Rmult_1_r s) at 2; apply Rmult_le_compat_l; lra).
  unfold left_side. split.
  - intros [I|I].
    + assert (0 < side (pol e (u - w)) (pol e u) (pol r (u - w / 2))) as Q by (apply I; cbn; tauto). rewrite E3 in Q.
      assert (0 < e * cos (w / 2) - r); [|unfold r in *; lra]. apply (Rmult_lt_reg_l (2 * e * sin (w / 2))); lra.
    + assert (side (pol s (u - w)) (pol e (u - w)) (pol r (u - w / 2)) < 0) as Q by (apply I; cbn; tauto). lra.
  - intros L. left. intros a b J. cbn [edges combine app In] in J. destruct J as [J|[J|[J|[J|[]]]]]; injection J as <- <-.
    + rewrite E1. apply Rmult_lt_0_compat; lra.
    + lra.
    + rewrite E3. apply Rmult_lt_0_compat; [lra|]. unfold r. lra.
    + lra.
Qed.
Lemma right_inside : forall s e u w, 0 < s < e -> 0 < w < PI ->
  (inside_convex (pol ((e - s) / 2 + s) (u + w / 2)) (right_side s e u w) <-> (s + e) / 2 < e * cos (w / 2)).
Proof.
  intros s e u w SE W. set (r := (e - s) / 2 + s). assert (RS : s < r < e) by (unfold r; lra).
  assert (SN : 0 < sin (w / 2)) by (apply sin_gt_0; lra).
  assert (E1 : side (pol s u) (pol s (u + w)) (pol r (u + w / 2)) = - (2 * s * sin (w / 2) * (r - s * cos (w / 2)))).
  { rewrite side_pol. replace (u + w - u) with w by ring. replace (u + w / 2 - (u + w)) with (- (w / 2)) by field. replace (u - (u + w / 2)) with (- (w / 2)) by ring.
    rewrite sin_neg, (sin_double w). ring. }
  assert (E2 : side (pol s (u + w)) (pol e (u + w)) (pol r (u + w / 2)) = - (r * (e - s) * sin (w / 2))).
  { rewrite side_pol. replace (u + w - (u + w)) with 0 by ring. replace (u + w / 2 - (u + w)) with (- (w / 2)) by field. replace (u + w - (u + w / 2)) with (w / 2) by field.
    rewrite sin_0, sin_neg. ring. }
  assert (E3 : side (pol e (u + w)) (pol e u) (pol r (u + w / 2)) = - (2 * e * sin (w / 2) * (e * cos (w / 2) - r))).
  { rewrite side_pol. replace (u - (u + w)) with (- w) by ring. replace (u + w / 2 - u) with (w / 2) by ring. replace (u + w - (u + w / 2)) with (w / 2) by field.
    rewrite sin_neg, (sin_double w). ring. }
  assert (E4 : side (pol e u) (pol s u) (pol r (u + w / 2)) = - (r * (e - s) * sin (w / 2))).
  { rewrite side_pol. replace (u - u) with 0 by ring. replace (u + w / 2 - u) with (w / 2) by ring. replace (u - (u + w / 2)) with (- (w / 2)) by ring.
    rewrite sin_0, sin_neg. ring. }
  assert (P2 : 0 < r * (e - s) * sin (w / 2)) by (repeat apply Rmult_lt_0_compat; lra).
  assert (P1 : 0 < 2 * s * sin (w / 2)) by (repeat apply Rmult_lt_0_compat; lra).
  assert (P3 : 0 < 2 * e * sin (w / 2)) by (repeat apply Rmult_lt_0_compat; lra).
  assert (CB : s * cos (w / 2) <= s) by (pose proof (COS_bound (w / 2)); rewrite <- (Rmult_1_r s) at 2; apply Rmult_le_compat_l; lra).
  unfold right_side. split.
  - intros [I|I].
    + assert (0 < side (pol s (u + w)) (pol e (u + w)) (pol r (u + w / 2))) as Q by (apply I; cbn; tauto). lra.
    + assert (side (pol e (u + w)) (pol e u) (pol r (u + w / 2)) < 0) as Q by (apply I; cbn; tauto). rewrite E3 in Q.
      assert (0 < e * cos (w / 2) - r); [|unfold r in *; lra]. apply (Rmult_lt_reg_l (2 * e * sin (w / 2))); lra.
  - intros L. right. intros a b J. cbn [edges combine app In] in J. destruct J as [J|[J|[J|[J|[]]]]]; injection J as <- <-.
    + rewrite E1. apply Ropp_lt_gt_0_contravar, Rmult_lt_0_compat; lra.
    + lra.
    + rewrite E3. apply Ropp_lt_gt_0_contravar, Rmult_lt_0_compat; [lra|]. unfold r. lra.
    + lra.
Qed.

(** ** The program written out *)
Variable k : motor ROps.
Notation ws := (winding_start ROps k).
Notation we := (winding_end ROps k).
Notation cur := (coil_current ROps k).
Definition coil (step stem : R) (i : nat) : list (call ROps (prop ROps mat)) :=
  let c := step * INR i in let w := step * winding_fill _ k in
  [ DrawPolygon (left_side ws we (c - stem) w); DrawRegion (pol ((we - ws) / 2 + ws) (c - stem - w / 2)) (- cur i, P 0 0, air);
    DrawPolygon (right_side ws we (c + stem) w); DrawRegion (pol ((we - ws) / 2 + ws) (c + stem + w / 2)) (cur i, P 0 0, air) ].
Definition magnet_pole (i : nat) : R := if Nat.eqb (i mod 2) 0 then - magnet_magnetization _ k else magnet_magnetization _ k.
Definition magnet (step half : R) (i : nat) : list (call ROps (prop ROps mat)) :=
  let c := step * INR i + angle _ k in let inner := rotor_inner_radius _ k - magnet_thickness _ k in
  [ DrawPolygon [pol (rotor_inner_radius _ k) (c - half); pol inner (c - half); pol inner (c + half); pol (rotor_inner_radius _ k) (c + half)];
    DrawRegion (pol (rotor_inner_radius _ k - magnet_thickness _ k / 2) c) (0, pol (magnet_pole i) c, iron) ].
Lemma coil_run : forall step stem i, coil_calls ROps lm mat air k step stem i = Ok (coil step stem i).
Proof.
  intros. unfold coil_calls, coil. cbn [ofZ ROps mul add opp sub zero]. toR. repeat (rewrite div_ok by lra; cbn [bind]).
  rewrite !INR_IZR_INZ. reflexivity.
Qed.
Lemma magnet_run : forall step half i, magnet_calls ROps lm mat iron k step half i = Ok (magnet step half i).
Proof.
  intros. unfold magnet_calls, magnet. cbn [ofZ ROps mul add opp sub zero]. toR. repeat (rewrite div_ok by lra; cbn [bind]).
  rewrite !INR_IZR_INZ. reflexivity.
Qed.
Lemma collect_run : forall X (f : nat -> res (list X)) g, (forall i, f i = Ok (g i)) -> forall n i, collect f n i = Ok (flat_map g (seq i n)).
Proof. intros X f g E. induction n; intros i; cbn [collect seq flat_map]; auto. rewrite E. cbn [bind]. rewrite IHn. reflexivity. Qed.
Definition pitch (n : nat) : R := 2 * PI / INR n.
Lemma step_run : forall n, n <> O -> angle_step ROps lm n = Ok (pitch n).
Proof.
  intros n N. destruct EX as (_ & _ & P & _). unfold angle_step. cbn [ofZ ROps mul]. rewrite P. rewrite div_ok; [unfold pitch; rewrite INR_IZR_INZ; reflexivity|].
  apply not_0_IZR. lia.
Qed.
Lemma step_zero : is_nonfin (angle_step ROps lm 0).
Proof. unfold angle_step. cbn [ofZ ROps div mul Z.of_nat]. apply Rdivr_zero. Qed.
Definition stem_of (sp : nat) : R := pitch sp * stem_percent _ k / 2.
Definition cap_of (sp : nat) : R := pitch sp * (1 - cap_unfilled _ k) / 2.
Definition fill_of (rp : nat) : R := pitch rp * magnet_fill _ k / 2.
Definition rest_a (sp rp : nat) : list (call ROps (prop ROps mat)) :=
  [ DrawPolygon (flat_map (pole_vertices ROps lm k (pitch sp) (stem_of sp) (cap_of sp)) (seq 0 sp));
    DrawCircle (P 0 0) (stator_inner_radius _ k) (sp * 10);
    DrawRegion (pol (stator_outer_radius _ k) 0) (0, P 0 0, iron);
    DrawRegion (pol (stator_outer_radius _ k + core_gap ROps k / 2) (pitch sp / 2)) (0, P 0 0, air);
    DrawRegion (P 0 0) (0, P 0 0, air);
    DrawCircle (P 0 0) (rotor_outer_radius _ k) (rp * 10) ].
Definition rest_b (rp : nat) : list (call ROps (prop ROps mat)) :=
  [ DrawPolygon (flat_map (fun i => [magnet_side ROps lm k (pitch rp) (fill_of rp) i false; magnet_side ROps lm k (pitch rp) (fill_of rp) i true]) (seq 0 rp));
    DrawRegion (pol ((rotor_outer_radius _ k + rotor_inner_radius _ k) / 2) (angle _ k)) (0, P 0 0, iron) ].
Definition motor_list (sp rp : nat) : list (call ROps (prop ROps mat)) :=
  flat_map (coil (pitch sp) (stem_of sp)) (seq 0 sp) ++ rest_a sp rp ++ flat_map (magnet (pitch rp) (fill_of rp)) (seq 0 rp) ++ rest_b rp.
Notation mcalls := (motor_calls ROps lm mat iron air k).
Lemma motor_run : forall sp rp, sp <> O -> rp <> O -> mcalls sp rp = Ok (motor_list sp rp).
Proof.
  intros sp rp S R. unfold motor_calls. rewrite (step_run sp) by auto. cbn [bind]. unfold stem_half, cap_half. cbn [ofZ ROps mul add opp sub zero]. toR.
  repeat (rewrite div_ok by lra; cbn [bind]). rewrite (collect_run _ _ _ (fun i => coil_run _ _ i)). cbn [bind].
  repeat (rewrite div_ok by lra; cbn [bind]). rewrite (step_run rp) by auto. cbn [bind]. repeat (rewrite div_ok by lra; cbn [bind]).
  rewrite (collect_run _ _ _ (fun i => magnet_run _ _ i)). cbn [bind]. repeat (rewrite div_ok by lra; cbn [bind]). reflexivity.
Qed.
Lemma motor_zero : forall sp rp, sp = O \/ rp = O -> is_nonfin (mcalls sp rp).
Proof.
  intros sp rp Z. destruct sp as [|sp].
  - unfold motor_calls. destruct step_zero as [s ->]. exists s. reflexivity.
  - destruct Z as [Z| ->]; [discriminate|]. unfold motor_calls. rewrite (step_run (S sp)) by auto. cbn [bind]. unfold stem_half, cap_half. cbn [ofZ ROps mul add opp sub zero]. toR.
    repeat (rewrite div_ok by lra; cbn [bind]). rewrite (collect_run _ _ _ (fun i => coil_run _ _ i)). cbn [bind].
    repeat (rewrite div_ok by lra; cbn [bind]). destruct step_zero as [s ->]. exists s. reflexivity.
Qed.
(** ** Net current *)
Definition starts_region (cs : list (call ROps (prop ROps mat))) : bool := match cs with DrawRegion _ _ :: _ => true | _ => false end.
Lemma coil_current_sum : forall sp st l cs, starts_region cs = false ->
  total_current (flat_map (coil sp st) l ++ cs) = total_current cs.
Proof.
  intros sp st l cs N. unfold total_current. induction l as [|i l IH]; [reflexivity|]. cbn [flat_map]. rewrite <- app_assoc. unfold coil at 1. cbv zeta.
  set (rest := flat_map (coil sp st) l ++ cs) in *. assert (NR : starts_region rest = false) by (unfold rest; destruct l; auto).
  cbn [app labelled map fold_right fst snd]. unfold current_of at 1 2. cbn [fst snd]. unfold poly_area at 1 2. rewrite left_area, right_area, Rabs_Ropp. 
  rewrite IH. ring.
Qed.
Lemma magnet_current_sum : forall sp h l cs, total_current (flat_map (magnet sp h) l ++ cs) = total_current cs.
Proof.
  intros sp h l cs. unfold total_current. induction l as [|i l IH]; [reflexivity|]. cbn [flat_map]. rewrite <- app_assoc. unfold magnet at 1. cbv zeta.
  cbn [app labelled map fold_right fst snd]. unfold current_of at 1. cbn [fst]. rewrite IH. ring.
Qed.
Lemma motor_current : forall sp rp, total_current (motor_list sp rp) = 0.
Proof.
  intros sp rp. unfold motor_list. rewrite coil_current_sum by reflexivity. unfold rest_a. unfold total_current. cbn [app labelled].
  fold (total_current (flat_map (magnet (pitch rp) (fill_of rp)) (seq 0 rp) ++ rest_b rp)). rewrite magnet_current_sum.
  unfold rest_b, total_current. cbn [labelled map fold_right fst snd]. unfold current_of. cbn [fst]. ring.
Qed.
Lemma flat_len : forall X (f : nat -> list X) m n i, (forall j, length (f j) = m) -> length (flat_map f (seq i n)) = (m * n)%nat.
Proof. intros X f m n. induction n; intros i L; cbn [seq flat_map length]; [lia|]. rewrite app_length, L, IHn by auto. lia. Qed.
Lemma motor_count : forall sp rp, length (motor_list sp rp) = (4 * sp + 2 * rp + 8)%nat.
Proof.
  intros. unfold motor_list. rewrite !app_length. rewrite (flat_len _ _ 4) by reflexivity. rewrite (flat_len _ _ 2) by reflexivity. cbn [rest_a rest_b length]. lia.
Qed.
(** the declared current of the two sides of pole i *)
Lemma motor_coil : forall sp rp i, (i < sp)%nat -> incl (coil (pitch sp) (stem_of sp) i) (motor_list sp rp).
Proof. intros sp rp i L c J. unfold motor_list. apply in_app_iff. left. apply in_flat_map. exists i. split; auto. apply in_seq. lia. Qed.

(** ** Phases *)
Lemma cur_period : forall i, cur (12 + i) = cur i.
Proof.
  intros i. unfold coil_current. replace (12 + i)%nat with (i + 6 * 2)%nat by lia. rewrite Nat.div_add by lia.
  assert (A : ((i / 2 + 6) mod 3 = (i / 2) mod 3)%nat) by (change 6%nat with (2 * 3)%nat; apply Nat.mod_add; lia).
  assert (B : ((i / 2 + 6) mod 2 = (i / 2) mod 2)%nat) by (change 6%nat with (3 * 2)%nat; apply Nat.mod_add; lia).
  rewrite A, B. reflexivity.
Qed.
Definition sum_cur (l : list nat) : R := fold_right Rplus 0 (map cur l).
Lemma sum_cur_app : forall a b, sum_cur (a ++ b) = sum_cur a + sum_cur b.
Proof. intros. unfold sum_cur. induction a; cbn [app map fold_right]; [ring|rewrite IHa; ring]. Qed.
Lemma sum_cur_twelve : forall i, sum_cur (seq (12 * i) 12) = 0.
Proof.
  intros i. assert (E : forall j, cur (12 * i + j) = cur j).
  { induction i; intros j; [reflexivity|]. replace (12 * S i + j)%nat with (12 + (12 * i + j))%nat by lia. rewrite cur_period. auto. }
  unfold sum_cur. cbn [seq map fold_right].
  replace (12 * i)%nat with (12 * i + 0)%nat by lia. rewrite <- !Nat.add_succ_r. rewrite !E. unfold coil_current. cbn. ring.
Qed.
Lemma phases : forall m, sum_cur (seq 0 (12 * m)) = 0.
Proof.
  induction m; [reflexivity|]. replace (12 * S m)%nat with (12 * m + 12)%nat by lia. rewrite seq_app, sum_cur_app, IHm. cbn [Nat.add]. rewrite sum_cur_twelve. ring.
Qed.

(** ** Magnets *)
Definition total (l : list (call ROps (prop ROps mat))) : pt := total_magnetisation l.
Lemma total_app : forall a b, total (a ++ b) = P (px (total a) + px (total b)) (py (total a) + py (total b)).
Proof.
  intros. unfold total, total_magnetisation, magnetisations. rewrite flat_map_app, !map_app, !px_P, !py_P.
  assert (F : forall u v, fold_right Rplus 0 (u ++ v) = fold_right Rplus 0 u + fold_right Rplus 0 v) by (induction u; intros; cbn [app fold_right]; [ring|rewrite IHu; ring]).
  rewrite !F. reflexivity.
Qed.
Lemma total_coils : forall sp st l, total (flat_map (coil sp st) l) = P 0 0.
Proof.
  intros. induction l as [|i l IH]; [reflexivity|]. cbn [flat_map]. rewrite total_app, IH. unfold total, total_magnetisation, coil. cbv zeta.
  cbn [magnetisations flat_map app map fold_right]. unfold magnet_of. cbn [fst snd]. rewrite !px_P, !py_P. f_equal; ring.
Qed.
(** alternate signs are half a turn each *)
Lemma pole_turn : forall i t, pol (magnet_pole i) t = pol (- magnet_magnetization _ k) (t + INR i * PI).
Proof.
  intros i t. unfold magnet_pole. rewrite !pol_eq. induction i as [i IH] using lt_wf_ind. destruct i as [|[|i]].
  - cbn. rewrite Rmult_0_l, Rplus_0_r. reflexivity.
  - cbn. rewrite Rmult_1_l, neg_cos, neg_sin. f_equal; ring.
  - replace (S (S i) mod 2)%nat with (i mod 2)%nat by (replace (S (S i)) with (i + 1 * 2)%nat by lia; rewrite Nat.mod_add by lia; reflexivity).
    rewrite IH by lia. rewrite !S_INR. replace (t + (INR i + 1 + 1) * PI) with (t + INR i * PI + 2 * PI) by ring. rewrite cos_2PI_turn, sin_2PI_turn. reflexivity.
Qed.
(** the sum over n magnets, by telescoping *)
Lemma magnet_sum : forall st h n i, let b := st + PI in let t j := st * INR j + angle _ k + INR j * PI in
  px (total (flat_map (magnet st h) (seq i n))) * (2 * sin (b / 2)) = - magnet_magnetization _ k * (sin (t (i + n)%nat - b / 2) - sin (t i - b / 2)) /\
  py (total (flat_map (magnet st h) (seq i n))) * (2 * sin (b / 2)) = - magnet_magnetization _ k * (cos (t i - b / 2) - cos (t (i + n)%nat - b / 2)).
Proof.
  intros st h n. induction n; intros i b t.
  - cbn [seq flat_map]. unfold total, total_magnetisation. cbn [magnetisations flat_map map fold_right]. rewrite px_P, py_P. rewrite Nat.add_0_r. split; ring.
  - cbn [seq flat_map]. rewrite total_app, !px_P, !py_P. destruct (IHn (S i)) as [X Y]. cbv zeta in X, Y.
    rewrite !Rmult_plus_distr_r. fold b in X, Y. rewrite X, Y. clear X Y IHn.
    assert (M : total (magnet st h i) = pol (- magnet_magnetization _ k) (t i)).
    { unfold total, total_magnetisation, magnet. cbv zeta. cbn [magnetisations flat_map app map fold_right]. unfold magnet_of. cbn [fst snd].
      rewrite pole_turn. unfold t. rewrite pol_eq, px_P, py_P. f_equal; ring. }
    rewrite M, pol_eq, px_P, py_P. replace (S i + n)%nat with (i + S n)%nat by lia. fold (t (S i)) (t (i + S n)%nat).
    assert (E : t (S i) - b / 2 = t i + b / 2) by (unfold t, b; rewrite S_INR; field). rewrite E.
    rewrite (sin_plus (t i)), (cos_plus (t i)), (sin_minus (t i)), (cos_minus (t i)). split; ring.
Qed.
Lemma rest_total : forall sp rp, total (rest_a sp rp) = P 0 0 /\ total (rest_b rp) = P 0 0.
Proof.
  intros. unfold total, total_magnetisation, rest_a, rest_b. cbn [magnetisations flat_map app map fold_right]. unfold magnet_of. cbn [fst snd]. rewrite !px_P, !py_P.
  split; f_equal; ring.
Qed.
Lemma motor_total : forall sp rp, total (motor_list sp rp) = total (flat_map (magnet (pitch rp) (fill_of rp)) (seq 0 rp)).
Proof.
  intros. unfold motor_list. rewrite !total_app, total_coils. destruct (rest_total sp rp) as [A B]. rewrite A, B, !px_P, !py_P.
  destruct (total (flat_map _ _)) as [x y]. unfold px, py, P. cbn. f_equal; ring.
Qed.
Lemma motor_balanced : forall sp m, (2 <= m)%nat -> total (motor_list sp (2 * m)) = P 0 0.
Proof.
  intros sp m M. rewrite motor_total. set (n := (2 * m)%nat). destruct (magnet_sum (pitch n) (fill_of n) n 0) as [X Y]. cbv zeta in X, Y. cbn [Nat.add] in X, Y.
  assert (N0 : 0 < INR n) by (apply lt_0_INR; lia).
  assert (E : pitch n * INR n + angle _ k + INR n * PI - (pitch n + PI) / 2 = pitch n * INR 0 + angle _ k + INR 0 * PI - (pitch n + PI) / 2 + 2 * INR (S m) * PI).
  { unfold pitch. rewrite S_INR. cbn [INR]. unfold n. rewrite mult_INR. cbn [INR]. field. apply not_0_INR. lia. }
  rewrite E in X, Y. rewrite sin_period in X. rewrite cos_period in Y.
  assert (D : sin ((pitch n + PI) / 2) <> 0).
  { replace ((pitch n + PI) / 2) with (PI / INR n + PI / 2) by (unfold pitch; field; lra). rewrite sin_plus, sin_PI2, cos_PI2, Rmult_0_r, Rplus_0_l, Rmult_1_r.
    apply Rgt_not_eq. pose proof PI_RGT_0. assert (4 <= INR n) by (replace 4 with (INR 4) by (cbn; ring); apply le_INR; lia).
    apply cos_gt_0; [assert (0 < PI / INR n) by (apply Rdiv_lt_0_compat; lra); lra|].
    apply (Rmult_lt_reg_r (INR n)); [lra|]. unfold Rdiv at 1. rewrite Rmult_assoc, Rinv_l by lra. nra. }
  destruct (total _) as [x y]. unfold px, py, P in *. cbn [vx vy] in *. clearbody n. toR. f_equal.
  - apply (Rmult_eq_reg_r (2 * sin ((pitch n + PI) / 2))); [rewrite X; ring|]. intros Z. apply D. lra.
  - apply (Rmult_eq_reg_r (2 * sin ((pitch n + PI) / 2))); [rewrite Y; ring|]. intros Z. apply D. lra.
Qed.
Lemma motor_odd : forall sp m, let n := (2 * m + 1)%nat in
  cos (PI / INR n) <> 0 /\ total (motor_list sp n) = pol (- (magnet_magnetization _ k / cos (PI / INR n))) (angle _ k - PI / INR n).
Proof.
  intros sp m n. assert (N0 : 0 < INR n) by (apply lt_0_INR; lia). pose proof PI_RGT_0 as PP.
  assert (D : cos (PI / INR n) <> 0).
  { destruct m as [|m]; [unfold n; cbn [Nat.mul Nat.add INR]; replace (PI / 1) with PI by field; rewrite cos_PI; lra|].
    assert (3 <= INR n) by (replace 3 with (INR 3) by (cbn; ring); apply le_INR; lia).
    apply Rgt_not_eq, cos_gt_0; [assert (0 < PI / INR n) by (apply Rdiv_lt_0_compat; lra); lra|].
    apply (Rmult_lt_reg_r (INR n)); [lra|]. unfold Rdiv at 1. rewrite Rmult_assoc, Rinv_l by lra. nra. }
  split; [exact D|]. rewrite motor_total. destruct (magnet_sum (pitch n) (fill_of n) n 0) as [X Y]. cbv zeta in X, Y. cbn [Nat.add] in X, Y.
  set (f := angle ROps k : R) in *. set (g := magnet_magnetization ROps k : R) in *.
  assert (E : pitch n * INR n + f + INR n * PI - (pitch n + PI) / 2 = f - PI / INR n - PI / 2 + PI + 2 * INR (S m) * PI).
  { unfold pitch. rewrite S_INR. unfold n. rewrite plus_INR, mult_INR. cbn [INR]. field. pose proof (pos_INR m). lra. }
  assert (E0 : pitch n * INR 0 + f + INR 0 * PI - (pitch n + PI) / 2 = f - PI / INR n - PI / 2) by (unfold pitch; cbn [INR]; field; lra).
  rewrite E, E0 in X, Y. rewrite sin_period, neg_sin in X. rewrite cos_period, neg_cos in Y.
  assert (B : sin ((pitch n + PI) / 2) = cos (PI / INR n)).
  { replace ((pitch n + PI) / 2) with (PI / INR n + PI / 2) by (unfold pitch; field; lra). rewrite sin_plus, sin_PI2, cos_PI2. ring. }
  assert (B1 : sin (f - PI / INR n - PI / 2) = - cos (f - PI / INR n)) by (rewrite sin_minus, sin_PI2, cos_PI2; ring).
  assert (B2 : cos (f - PI / INR n - PI / 2) = sin (f - PI / INR n)) by (rewrite cos_minus, sin_PI2, cos_PI2; ring).
  rewrite B, ?B1, ?B2 in *. rewrite pol_eq. destruct (total _) as [x y]. unfold px, py, P in *. cbn [vx vy] in *. clearbody n. toR. f_equal.
  - apply (Rmult_eq_reg_r (2 * cos (PI / INR n))); [rewrite X; field; auto|]. intros Z. apply D. lra.
  - apply (Rmult_eq_reg_r (2 * cos (PI / INR n))); [rewrite Y; field; auto|]. intros Z. apply D. lra.
Qed.
Lemma motor_two : forall sp, total (motor_list sp 2) = pol (- (2 * magnet_magnetization _ k)) (angle _ k).
Proof.
  intros sp. rewrite motor_total. cbn [seq flat_map app]. unfold total, total_magnetisation, magnet. cbv zeta. cbn [magnetisations flat_map app map fold_right]. unfold magnet_of. cbn [fst snd].
  rewrite !pole_turn, !pol_eq, !px_P, !py_P. unfold pitch. cbn [INR].
  set (a := angle ROps k : R). set (mg := magnet_magnetization ROps k : R).
  assert (A0 : 2 * PI / (1 + 1) * 0 + a + 0 * PI = a) by field. assert (A1 : 2 * PI / (1 + 1) * 1 + a + 1 * PI = a + 2 * PI) by field.
  rewrite A0, A1.
  rewrite cos_2PI_turn, sin_2PI_turn. f_equal; ring.
Qed.
(** ** The outlines that carry current *)
Lemma labelled_coils : forall sp st l cs x, starts_region cs = false -> In x (labelled (flat_map (coil sp st) l ++ cs)) ->
  (exists i, let u := sp * INR i in let w := sp * winding_fill _ k in
     x = (left_side ws we (u - st) w, (pol ((we - ws) / 2 + ws) (u - st - w / 2), (- cur i, P 0 0, air))) \/
     x = (right_side ws we (u + st) w, (pol ((we - ws) / 2 + ws) (u + st + w / 2), (cur i, P 0 0, air)))) \/ In x (labelled cs).
Proof.
  intros sp st l cs x N. induction l as [|i l IH]; cbn [flat_map]; [auto|]. rewrite <- app_assoc. unfold coil at 1. cbv zeta. cbn [app labelled In].
  intros [E|[E|J]].
  - left. exists i. cbv zeta. auto.
  - left. exists i. cbv zeta. auto.
  - auto.
Qed.
Lemma labelled_magnets : forall sp h l cs x, In x (labelled (flat_map (magnet sp h) l ++ cs)) -> current_of (snd (snd x)) = 0 \/ In x (labelled cs).
Proof.
  intros sp h l cs x. induction l as [|i l IH]; cbn [flat_map]; [auto|]. rewrite <- app_assoc. unfold magnet at 1. cbv zeta. cbn [app labelled In].
  intros [E|J]; [left; subst x; reflexivity|auto].
Qed.
Lemma motor_seeds : forall sp rp g q v, In (g, (q, v)) (labelled (motor_list sp rp)) -> current_of v <> 0 ->
  0 < ws < we -> 0 < pitch sp * winding_fill _ k < PI ->
  (inside_convex q g <-> (ws + we) / 2 < we * cos (pitch sp * winding_fill _ k / 2)).
Proof.
  intros sp rp g q v J N SE W. unfold motor_list in J. apply labelled_coils in J; [|reflexivity]. destruct J as [(i & [E|E])|J].
  - injection E as -> -> ->. apply left_inside; auto.
  - injection E as -> -> ->. apply right_inside; auto.
  - exfalso. unfold rest_a in J. cbn [app labelled] in J. apply labelled_magnets in J. destruct J as [J|J]; [cbn [snd] in J; contradiction|].
    unfold rest_b in J. cbn [labelled In] in J. destruct J as [J|[]]. injection J as _ _ <-. apply N. reflexivity.
Qed.
Lemma magnet_inside : forall e s c h, 0 < s < e -> 0 < 2 * h < PI ->
  (inside_convex (pol (e - (e - s) / 2) c) [pol e (c - h); pol s (c - h); pol s (c + h); pol e (c + h)] <-> (s + e) / 2 < e * cos h).
Proof.
  intros e s c h SE W. pose proof (right_inside s e (c - h) (2 * h) SE W) as R. unfold right_side in R.
  replace (c - h + 2 * h) with (c + h) in R by ring. replace (c - h + 2 * h / 2) with c in R by lra. replace (2 * h / 2) with h in R by lra.
  replace (e - (e - s) / 2) with ((e - s) / 2 + s) by lra. rewrite <- R. unfold inside_convex. cbn [edges combine app In].
  split; (intros [I|I]; [left|right]); intros a b J; apply I; tauto.
Qed.
Lemma motor_magnets : forall sp rp i, (i < rp)%nat ->
  let c := pitch rp * INR i + angle _ k in let e := rotor_inner_radius _ k in let s := e - magnet_thickness _ k in
  In ([pol e (c - fill_of rp); pol s (c - fill_of rp); pol s (c + fill_of rp); pol e (c + fill_of rp)], (pol (e - magnet_thickness _ k / 2) c, (0, pol (magnet_pole i) c, iron))) (labelled (motor_list sp rp)).
Proof.
  intros sp rp i L c e s.
  assert (A : forall l cs x, In x (labelled cs) -> In x (labelled (flat_map (coil (pitch sp) (stem_of sp)) l ++ cs))).
  { intros l cs x J. induction l; auto. cbn [flat_map]. rewrite <- app_assoc. unfold coil at 1. cbv zeta. cbn [app labelled In]. auto. }
  unfold motor_list. apply A. unfold rest_a. cbn [app labelled].
  assert (B : forall m j, (j <= i < j + m)%nat -> In ([pol e (c - fill_of rp); pol s (c - fill_of rp); pol s (c + fill_of rp); pol e (c + fill_of rp)], (pol (e - magnet_thickness _ k / 2) c, (0, pol (magnet_pole i) c, iron)))
    (labelled (flat_map (magnet (pitch rp) (fill_of rp)) (seq j m) ++ rest_b rp))).
  { induction m; intros j J; [lia|]. cbn [seq flat_map]. rewrite <- app_assoc. unfold magnet at 1. cbv zeta. cbn [app labelled In].
    destruct (Nat.eq_dec j i) as [->|N]; [left; reflexivity|]. right. apply IHm. lia. }
  apply B. lia.
Qed.
Lemma motor_coils : forall sp rp i, (i < sp)%nat ->
  let u := pitch sp * INR i in let w := pitch sp * winding_fill _ k in let st := stem_of sp in
  In (left_side ws we (u - st) w, (pol ((we - ws) / 2 + ws) (u - st - w / 2), (- cur i, P 0 0, air))) (labelled (motor_list sp rp)) /\
  In (right_side ws we (u + st) w, (pol ((we - ws) / 2 + ws) (u + st + w / 2), (cur i, P 0 0, air))) (labelled (motor_list sp rp)).
Proof.
  intros sp rp i L u w st. unfold motor_list. set (cs := rest_a sp rp ++ _).
  assert (B : forall m j, (j <= i < j + m)%nat ->
    In (left_side ws we (u - st) w, (pol ((we - ws) / 2 + ws) (u - st - w / 2), (- cur i, P 0 0, air))) (labelled (flat_map (coil (pitch sp) (stem_of sp)) (seq j m) ++ cs)) /\
    In (right_side ws we (u + st) w, (pol ((we - ws) / 2 + ws) (u + st + w / 2), (cur i, P 0 0, air))) (labelled (flat_map (coil (pitch sp) (stem_of sp)) (seq j m) ++ cs))).
  { induction m; intros j J; [lia|]. cbn [seq flat_map]. rewrite <- app_assoc. unfold coil at 1 3. cbv zeta. cbn [app labelled In].
    destruct (Nat.eq_dec j i) as [->|N]; [split; [left|right; left]; reflexivity|]. destruct (IHm (S j)) as [X Y]; [lia|]. auto. }
  apply B. lia.
Qed.
(** ** The stator outline *)
Definition stator (sp : nat) : list pt := flat_map (pole_vertices ROps lm k (pitch sp) (stem_of sp) (cap_of sp)) (seq 0 sp).
Lemma motor_stator : forall sp rp, In (DrawPolygon (stator sp)) (motor_list sp rp).
Proof. intros. unfold motor_list. apply in_app_iff. right. apply in_app_iff. left. left. reflexivity. Qed.
Lemma pv_len : forall a b c i, length (pole_vertices ROps lm k a b c i) = 12%nat.
Proof. reflexivity. Qed.
Lemma nth_flat : forall (f : nat -> list pt) m, (forall i, length (f i) = m) -> forall n b i j, (i < n)%nat -> (j < m)%nat ->
  nth_error (flat_map f (seq b n)) (m * i + j) = nth_error (f (b + i)%nat) j.
Proof.
  intros f m L. induction n; intros b i j I J; [lia|]. cbn [seq flat_map]. destruct i as [|i].
  - rewrite nth_error_app1 by (rewrite L; lia). f_equal; [f_equal; lia|lia].
  - rewrite nth_error_app2 by (rewrite L; lia). rewrite L. replace (m * S i + j - m)%nat with (m * i + j)%nat by lia. rewrite IHn by lia. f_equal. f_equal. lia.
Qed.
Lemma stator_nth : forall sp i j, (i < sp)%nat -> (j < 12)%nat -> nth_error (stator sp) (12 * i + j) = nth_error (pole_vertices ROps lm k (pitch sp) (stem_of sp) (cap_of sp) i) j.
Proof. intros. unfold stator. rewrite (nth_flat _ 12) by (auto using pv_len). reflexivity. Qed.
Lemma pol_turn : forall r t a, rotate ROps sin cos (pol r t) a (P 0 0) = pol r (t + a).
Proof.
  intros. rewrite !pol_eq. unfold rotate, rotate0, vadd, vminus, P. cbn [vx vy add sub mul ROps]. toR. rewrite cos_plus, sin_plus. f_equal; ring.
Qed.
Lemma stator_turn : forall sp i j, (i < sp)%nat -> (j < 12)%nat ->
  exists p, nth_error (stator sp) j = Some p /\ nth_error (stator sp) (12 * i + j) = Some (rotate ROps sin cos p (pitch sp * INR i) (P 0 0)).
Proof.
  intros sp i j I J. rewrite stator_nth by auto. pose proof (stator_nth sp 0 j ltac:(lia) J) as Z1. rewrite Nat.mul_0_r in Z1. cbn [Nat.add] in Z1. rewrite Z1. clear Z1.
  unfold pole_vertices. cbn [ofZ ROps mul add sub]. rewrite <- !INR_IZR_INZ. cbn [INR]. toR.
  repeat (destruct j as [|j]; [eexists; split; [reflexivity|]; cbn [nth_error]; rewrite pol_turn; f_equal; f_equal; ring|]). lia.
Qed.
(** of the first pole: mirror images *)
Lemma stator_mirror : forall sp j, (0 < sp)%nat -> (j < 6)%nat ->
  exists p, nth_error (stator sp) j = Some p /\ nth_error (stator sp) (11 - j) = Some (P (px p) (- py p)) /\
    rotate ROps sin cos p (pitch sp * (if (j <? 4)%nat then stem_percent _ k else 1 - cap_unfilled _ k)) (P 0 0) = P (px p) (- py p) /\
    px p * px p + py p * py p = Rsqr (nth j [stator_outer_radius _ k; ws; we; stator_inner_pole_radius _ k; stator_inner_pole_radius _ k; stator_outer_pole_radius _ k] 0).
Proof.
  intros sp j S J. pose proof (stator_nth sp 0 j S ltac:(lia)) as Z1. pose proof (stator_nth sp 0 (11 - j) S ltac:(lia)) as Z2. rewrite Nat.mul_0_r in Z1, Z2. cbn [Nat.add] in Z1, Z2. rewrite Z1, Z2. clear Z1 Z2.
  unfold pole_vertices. cbn [ofZ ROps mul add sub Z.of_nat]. toR.
  assert (M : forall r x, pol r (pitch sp * 0 + x) = P (px (pol r (pitch sp * 0 - x))) (- py (pol r (pitch sp * 0 - x)))).
  { intros r x. rewrite !pol_eq, !px_P, !py_P. rewrite !Rmult_0_r, Rplus_0_l, Rminus_0_l, cos_neg, sin_neg. f_equal. ring. }
  assert (Q : forall r t, px (pol r t) * px (pol r t) + py (pol r t) * py (pol r t) = Rsqr r).
  { intros r t. rewrite pol_eq, px_P, py_P. pose proof (sin2_cos2 t) as SC. unfold Rsqr in *. transitivity (r * r * (sin t * sin t + cos t * cos t)); [ring|rewrite SC; ring]. }
  repeat (destruct j as [|j]; [eexists; split; [reflexivity|]; cbn [nth_error Nat.sub nth Nat.ltb Nat.leb]; rewrite <- M; split; [reflexivity|]; split; [rewrite pol_turn; f_equal; unfold stem_of, cap_of; toR; field|apply Q]|]). lia.
Qed.
(** the stems are shared with the coil sides *)
Lemma stem_edges : forall sp i, (i < sp)%nat -> let u := pitch sp * INR i in let st := stem_of sp in
  nth_error (stator sp) (12 * i + 1) = Some (pol ws (u - st)) /\ nth_error (stator sp) (12 * i + 2) = Some (pol we (u - st)) /\
  nth_error (stator sp) (12 * i + 9) = Some (pol we (u + st)) /\ nth_error (stator sp) (12 * i + 10) = Some (pol ws (u + st)).
Proof. intros sp i I u st. rewrite !stator_nth by lia. unfold pole_vertices, u, st. cbn [ofZ ROps mul add sub]. rewrite <- !INR_IZR_INZ. repeat split. Qed.
(** ** The rotor outline *)
Definition rotor (rp : nat) : list pt := flat_map (fun i => [magnet_side ROps lm k (pitch rp) (fill_of rp) i false; magnet_side ROps lm k (pitch rp) (fill_of rp) i true]) (seq 0 rp).
Lemma motor_rotor : forall sp rp, In (DrawPolygon (rotor rp)) (motor_list sp rp).
Proof. intros. unfold motor_list. apply in_app_iff. right. apply in_app_iff. right. apply in_app_iff. right. left. reflexivity. Qed.
Lemma rotor_nth : forall rp i, (i < rp)%nat -> let c := pitch rp * INR i + angle _ k in
  nth_error (rotor rp) (2 * i + 0) = Some (pol (rotor_inner_radius _ k) (c - fill_of rp)) /\ nth_error (rotor rp) (2 * i + 1) = Some (pol (rotor_inner_radius _ k) (c + fill_of rp)).
Proof.
  intros rp i I c. unfold rotor. rewrite !(nth_flat _ 2) by (auto; lia). cbn [nth_error Nat.add]. unfold magnet_side, c. cbn [ofZ ROps mul add sub]. rewrite <- !INR_IZR_INZ. auto.
Qed.
End Motor.
