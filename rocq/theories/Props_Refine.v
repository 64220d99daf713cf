(** Properties C81 and C82: refinement at the sharp corners and around magnets.  Vocabulary in RefineSpec.v, model in DrawingModel.v. *)
From Coq Require Import String.
From Coq Require Import List Arith ZArith NArith Bool Lia Reals Lra.
From Coq Require Import Floats.SpecFloat.
From Verif Require Import Base GeometryModel GeometrySpec Geometry_proofs Circle_proofs Polygon_proofs Segment_proofs Props_Geometry
  SolversSpec Solvers_bridge DrawingModel DrawingSpec Drawing_proofs DrawingR_proofs DrawingR2_proofs Props_Drawing MeshSpec SetupSpec RefineSpec Refine_proofs Refine2_proofs Refine3_proofs.
Import ListNotations.
Local Open Scope R_scope.

(** *** C81: every corner below 120 degrees gets those of the 18 places around it that are in an outline and not near its segments,
    in order; other points get nothing; the call never fails *)
Theorem C81_exact : forall (lm : libm ROps) (A : Type) (peq : A -> A -> bool), exact_libm lm -> exact_atan2 lm ->
  forall d : drawing ROps A, well_formed d -> no_loops d -> separated d ->
  exists (eps : R) ls, getCurrentEpsilon ROps A d = Ok eps /\ length ls = length (points d) /\
    (forall i c, nth_error (points d) i = Some c -> exists l, nth_error ls i = Some l /\ refined d i c eps l) /\
    exec ROps lm A peq AddRefiningPoints d = (with_points ROps A d (points d ++ concat ls), Ok tt).
Proof. exact refining_exact. Qed.
Print Assumptions C81_exact.
(** the hypotheses hold for what was drawn with distances of at least twice the tolerance *)
Theorem C81_drawn : forall (lm : libm ROps) (A : Type) (peq : A -> A -> bool), exact_libm lm -> exact_atan2 lm ->
  forall d : drawing ROps A, merged_history lm A peq (2 * tol9) d ->
  exists d', exec ROps lm A peq AddRefiningPoints d = (d', Ok tt) /\
    forall p, In p (points d') -> In p (points d) \/
      exists i c eps, nth_error (points d) i = Some c /\ sharp_corner d i /\ getCurrentEpsilon ROps A d = Ok eps /\ In p (ring_of c eps) /\ acceptable d i eps p.
Proof.
  intros lm A peq He Ha d M. destruct (C30_segments_have_two_ends lm A peq He d M) as [S N].
  assert (Rd : reached ROps lm A peq d) by (clear - M; induction M; [apply reached_new|eapply reached_call; eauto]).
  destruct (C81_exact lm A peq He Ha d (C27_well_formed ROps lm A peq total_ROps d Rd) N S) as [eps [ls [E [L [H X]]]]].
  eexists. split; [exact X|]. intros p Hp. cbn [with_points points] in Hp. apply in_app_or in Hp. destruct Hp as [Hp|Hp]; auto. right.
  apply in_concat in Hp. destruct Hp as [l [Hl Hp]]. apply In_nth_error in Hl. destruct Hl as [i Hi].
  assert (Li : (i < length (points d))%nat) by (rewrite <- L; apply nth_error_Some; congruence). apply nth_error_Some in Li.
  destruct (nth_error (points d) i) as [c|] eqn:Ec; [|congruence]. destruct (H i c Ec) as [l' [Hl' Rf]]. assert (l' = l) by congruence. subst l'.
  destruct Rf as [[SC [keep [K1 ->]]]|[_ ->]]; [|destruct Hp].
  apply filter_In in Hp. destruct Hp as [P1 P2]. exists i, c, eps. split; auto. split; auto. split; auto. split; auto. apply K1; auto.
Qed.
Print Assumptions C81_drawn.
(** all sharp corners of a drawing: an exact arc tangent, a right angle, and one of the places that is added *)
Definition atan2R (y x : R) : R := if Rle_dec 0 y then acos (x / sqrt (x * x + y * y)) else - acos (x / sqrt (x * x + y * y)).
Definition rlm2 : libm ROps := mkLibm ROps sin cos atan2R PI e100 0 (fun _ => Ok O).
Lemma atan2R_exact : exact_atan2 rlm2.
Proof.
  intros y x Hn. cbn [fatan2 rlm2]. set (r := sqrt (x * x + y * y)).
  assert (Hp : 0 < x * x + y * y).
  { destruct Hn as [Hn|Hn]; pose proof (Rsqr_pos_lt _ Hn) as A; pose proof (Rle_0_sqr x); pose proof (Rle_0_sqr y); unfold Rsqr in *; lra. }
  assert (Hr : 0 < r) by (apply sqrt_lt_R0; auto). assert (Hq : r * r = x * x + y * y) by (apply sqrt_sqrt; lra).
  set (c := x / r). assert (Ex : x = r * c) by (unfold c; field; lra).
  assert (Hc : c * c <= 1). { apply (Rmult_le_reg_l (r * r)); [apply Rmult_lt_0_compat; auto|]. replace (r * r * (c * c)) with ((r * c) * (r * c)) by ring. rewrite <- Ex. pose proof (Rle_0_sqr y). unfold Rsqr in *. lra. }
  assert (Hb : -1 <= c <= 1) by (split; nra).
  assert (Hs : Rabs y = r * sin (acos c)).
  { rewrite sin_acos by auto. apply Rsqr_inj; [apply Rabs_pos|apply Rmult_le_pos; [lra|apply sqrt_pos]|]. rewrite <- Rsqr_abs. unfold Rsqr.
    replace (r * sqrt (1 - c * c) * (r * sqrt (1 - c * c))) with (r * r * (sqrt (1 - c * c) * sqrt (1 - c * c))) by ring.
    rewrite sqrt_sqrt by lra. replace (r * r * (1 - c * c)) with (r * r - (r * c) * (r * c)) by ring. rewrite <- Ex. lra. }
  pose proof (acos_bound c) as B. unfold atan2R. fold r. fold c. destruct (Rle_dec 0 y) as [Y|Y].
  - split; [pose proof PI_RGT_0; lra|]. rewrite cos_acos by auto. rewrite <- Hs, Rabs_right by lra. auto.
  - rewrite Rabs_left in Hs by lra. rewrite cos_neg, sin_neg, cos_acos by auto. split; [|split; [auto|lra]].
    split; [|lra]. destruct (Req_dec (acos c) PI) as [E|N]; [|lra]. rewrite E, sin_PI in Hs. lra.
Qed.
Example C81_example : exact_libm rlm2 /\ exact_atan2 rlm2 /\ well_formed sheet /\ no_loops sheet /\ separated sheet /\ sharp_corner sheet 0 /\
  In (P (1 / 100 * cos (INR 2 * PI / 9)) (1 / 100 * sin (INR 2 * PI / 9))) (ring_of (P 0 0) 1) /\
  acceptable sheet 0 1 (P (1 / 100 * cos (INR 2 * PI / 9)) (1 / 100 * sin (INR 2 * PI / 9))).
Proof.
  split; [repeat split|]. split; [apply atan2R_exact|]. split; [apply C58_example|].
  destruct (C30_segments_have_two_ends rlm nat Nat.eqb rlm_exact sheet C30_example) as [S N]. split; auto. split; auto. split.
  - exists [], (0, 1)%nat, [(1, 2); (2, 3)]%nat, (3, 0)%nat, [], 1%nat, 3%nat, (P 0 0), (P 2 0), (P 0 1). unfold joins. cbn.
    do 3 (split; [auto|]). split; [auto|]. split; [auto|]. split; [auto|]. unfold below_120. rewrite !px_P, !py_P.
    pose proof (dist_nonneg (P 0 0) (P 2 0)). pose proof (dist_nonneg (P 0 0) (P 0 1)).
    pose proof (dist_sq (P 0 0) (P 2 0)) as D1. pose proof (dist_sq (P 0 0) (P 0 1)) as D2. rewrite !px_P, !py_P in *.
    assert (0 < dist (P 0 0) (P 2 0)) by nra. assert (0 < dist (P 0 0) (P 0 1)) by nra. assert (0 < dist (P 0 0) (P 2 0) * dist (P 0 0) (P 0 1)) by (apply Rmult_lt_0_compat; auto). lra.
  - set (p := P _ _). cbn [INR] in p.
    assert (B1 : 1 / 2 <= sin ((1 + 1) * PI / 9)). { rewrite <- sin_PI6. pose proof PI_RGT_0. apply sin_incr_1; lra. }
    assert (B2 : 1 / 2 <= cos ((1 + 1) * PI / 9)). { rewrite <- cos_PI3. pose proof PI_RGT_0. apply cos_decr_1; lra. }
    pose proof (SIN_bound ((1 + 1) * PI / 9)) as B3. pose proof (COS_bound ((1 + 1) * PI / 9)) as B4.
    split; [right; right; left; unfold p; rewrite !px_P, !py_P; cbn [INR]; f_equal; ring|]. split.
    + exists [P 0 0; P 2 0; P 2 1; P 0 1]. split; [left; auto|]. apply C22_rectangle; unfold p; rewrite ?px_P, ?py_P; lra.
    + intros s j a b q Hs J Ha Hb [t [Ht ->]]. cbn in Ha. injection Ha as <-.
      assert (J' : j = 1%nat \/ j = 3%nat).
      { destruct Hs as [<-|[<-|[<-|[<-|[]]]]]; destruct J as [[J1 J2]|[J1 J2]]; cbn in J1, J2; lia. }
      apply Rsqr_incr_0; [|lra|apply dist_nonneg]. unfold Rsqr. rewrite dist_sq. unfold along, p.
      destruct J' as [-> | ->]; cbn in Hb; injection Hb as <-; rewrite !px_P, !py_P.
      * match goal with |- _ <= ?u * ?u + ?v * ?v => assert (1 / 200 <= v) by lra; pose proof (Rle_0_sqr u); unfold Rsqr in *; nra end.
      * match goal with |- _ <= ?u * ?u + ?v * ?v => assert (1 / 200 <= u) by lra; pose proof (Rle_0_sqr v); unfold Rsqr in *; nra end.
Qed.

(** *** C82: refinement around magnets, every outcome.  The edges of the magnets are refined in turn; the call ends early exactly when the
    feature size has become zero or the number of steps along an edge does not fit *)
Theorem C82_exact : forall (lm : libm ROps) (A : Type) (mag : A -> pt), converts lm ->
  forall (d d' : drawing ROps A) r, well_formed d -> nondegenerate d -> refineMeshAroundMagnets ROps lm A mag d = (d', r) ->
  exists gs, (forall g, In g gs <-> magnet mag d g) /\ runs_edges d (all_edges gs) (points d) d' r.
Proof. exact refine_magnets_R. Qed.
Print Assumptions C82_exact.
(** without a magnet nothing happens *)
Theorem C82_no_magnet : forall (lm : libm ROps) (A : Type) (mag : A -> pt), converts lm ->
  forall d : drawing ROps A, well_formed d -> nondegenerate d -> (forall g, ~ magnet mag d g) -> refineMeshAroundMagnets ROps lm A mag d = (d, Ok tt).
Proof.
  intros lm A mag C d W ND N. destruct (refineMeshAroundMagnets ROps lm A mag d) as [d' r] eqn:E.
  destruct (C82_exact lm A mag C d d' r W ND E) as [gs [G [es1 [es2 [pts [X [F [D S]]]]]]]].
  assert (gs = []) by (destruct gs as [|g gs]; auto; exfalso; apply (N g), G; left; auto). subst gs. cbn in X. symmetry in X. apply app_eq_nil in X. destruct X as [-> ->].
  inversion F; subst. destruct d; reflexivity.
Qed.
Print Assumptions C82_no_magnet.
(** every added point is in a magnet and clear of the points present when it was added *)
Theorem C82_clear : forall (lm : libm ROps) (A : Type) (mag : A -> pt), converts lm ->
  forall (d d' : drawing ROps A) r, well_formed d -> nondegenerate d -> refineMeshAroundMagnets ROps lm A mag d = (d', r) ->
  exists new, d' = with_points ROps A d (points d ++ new) /\ forall l1 p l2, new = l1 ++ p :: l2 ->
    exists g eps k, magnet mag d g /\ (k <= length l1)%nat /\ getCurrentEpsilon ROps A (with_points ROps A d (points d ++ firstn k l1)) = Ok eps /\ 0 < eps /\
      poly_contains ROps g p = true /\ forall q, In q (concat (polygons d) ++ points d ++ l1) -> eps / 10 <= dist p q.
Proof.
  intros lm A mag C d d' r W ND H. destruct (C82_exact lm A mag C d d' r W ND H) as [gs [G [es1 [es2 [pts [X [F [D _]]]]]]]].
  assert (M : forall e, In e es1 -> magnet mag d (fst e)).
  { intros e He. assert (I : In e (all_edges gs)) by (rewrite X; apply in_or_app; auto). unfold all_edges in I. apply in_flat_map in I. destruct I as [g [I1 I2]]. apply in_map_iff in I2. destruct I2 as [x [<- _]]. apply G. auto. }
  clear X G H. subst d'. 
  assert (Q : forall es p0 p1, edges_refined d es p0 p1 -> (forall e, In e es -> magnet mag d (fst e)) -> forall l0, p0 = points d ++ l0 -> exists new, p1 = p0 ++ new /\ forall l1 p l2, new = l1 ++ p :: l2 ->
    exists g eps k, magnet mag d g /\ (k <= length (l0 ++ l1))%nat /\ getCurrentEpsilon ROps A (with_points ROps A d (points d ++ firstn k (l0 ++ l1))) = Ok eps /\ 0 < eps /\
      poly_contains ROps g p = true /\ forall q, In q (concat (polygons d) ++ p0 ++ l1) -> eps / 10 <= dist p q).
  { clear - ND. intros es p0 p1 F. induction F as [p0|g a b es p0 p1 p2 E F IH]; intros M l0 E0.
    - exists []. rewrite app_nil_r. split; auto. intros l1 p l2 K. destruct l1; discriminate.
    - destruct E as [eps [n [E1 [E2 [_ [_ SV]]]]]].
      assert (Z : exists new, p1 = p0 ++ new /\ forall l1 p l2, new = l1 ++ p :: l2 -> inside_clear g (polygons d) (eps / 10) (p0 ++ l1) p).
      { clear - SV. induction SV as [p0|p0 c cs p1 K SV [new [-> IH]]|p0 c cs p1 K SV IH]; auto.
        - exists []. rewrite app_nil_r. split; auto. intros l1 p l2 K. destruct l1; discriminate.
        - exists (c :: new). rewrite <- app_assoc. split; auto. intros [|x l1] p l2 L; cbn in L; injection L as -> L; [rewrite app_nil_r; auto|]. specialize (IH l1 p l2 L). rewrite <- app_assoc in IH. exact IH. }
      destruct Z as [n1 [-> Z]]. destruct (IH (fun e He => M e (or_intror He)) (l0 ++ n1)) as [n2 [-> Y]]; [rewrite E0, app_assoc; auto|].
      exists (n1 ++ n2). rewrite app_assoc. split; auto. intros l1 p l2 L.
      assert (CS : (exists m, n1 = l1 ++ p :: m) \/ exists m, l1 = n1 ++ m /\ n2 = m ++ p :: l2).
      { clear - L. revert l1 L. induction n1 as [|x n1 IHn]; intros l1 L; [right; exists l1; auto|]. destruct l1 as [|y l1]; cbn in L; injection L as -> L.
        - left. exists n1. auto.
        - destruct (IHn l1 L) as [[m ->]|[m [-> ->]]]; [left; exists m; auto|right; exists m; auto]. }
      destruct CS as [[m ->]|[m [-> ->]]].
      + destruct (Z l1 p m eq_refl) as [Z1 Z2]. exists g, eps, (length l0). split; [apply (M (g, (a, b))); left; auto|]. split; [rewrite app_length; lia|]. split; [rewrite firstn_app, Nat.sub_diag, firstn_all, firstn_O, app_nil_r, <- E0; auto|]. auto.
      + destruct (Y m p l2 eq_refl) as [g' [eps' [k [Y1 [Y2 [Y3 [Y4 [Y5 Y6]]]]]]]]. exists g', eps', k. rewrite <- app_assoc in Y2, Y3. split; auto. split; auto. split; auto. split; auto. split; auto.
        intros q Hq. apply Y6. rewrite <- app_assoc. exact Hq. }
  destruct (Q es1 (points d) pts F M [] (eq_sym (app_nil_r _))) as [new [E K]]. exists new. rewrite E. split; auto.
Qed.
Print Assumptions C82_clear.
(** the call does not complete on a magnet that is a rectangle: a point is put onto its side, after which the feature size is zero *)
Theorem C82_rectangle_refuted : forall (lm : libm ROps) (A : Type) (mag : A -> pt), converts lm ->
  forall x0 y0 x1 y1 (v : A) seed, x0 <> x1 -> y0 <> y1 -> poly_contains ROps (rect x0 y0 x1 y1) seed = true -> ~ near (mag v) (P 0 0) ->
  10 * Rabs (x1 - x0) < 2 ^ 32 * Rabs (y1 - y0) -> Rabs (x1 - x0) <= dbl_max ROps ->
  exists d' s, refineMeshAroundMagnets ROps lm A mag (one_rect v seed x0 y0 x1 y1) = (d', NonFin s).
Proof.
  intros lm A mag C x0 y0 x1 y1 v seed Hx Hy Hs Hm Hw Hb. destruct (refineMeshAroundMagnets ROps lm A mag (one_rect v seed x0 y0 x1 y1)) as [d' r] eqn:E.
  destruct (stops lm A mag C x0 y0 x1 y1 v seed Hx Hy Hs Hm Hw Hb d' r E) as [s ->]. eauto.
Qed.
Print Assumptions C82_rectangle_refuted.
(** such a drawing is made by drawing a rectangle and a seed in it *)
Definition rlm3 : libm ROps := mkLibm ROps sin cos atan2R PI e100 0
  (fun x => if Rlt_dec x (2 ^ 32) then Ok (Z.to_nat (Int_part x)) else UB "not a uint32_t").
Lemma rlm3_converts : converts rlm3.
Proof.
  split.
  - intros x H. cbn [to_u32 rlm3]. destruct (Rlt_dec x (2 ^ 32)) as [|N]; [|exfalso; lra]. eexists. split; [reflexivity|].
    destruct (base_Int_part x) as [B1 B2]. assert (Z0 : (0 <= Int_part x)%Z). { apply Z.lt_succ_r, lt_IZR. rewrite succ_IZR. cbn. lra. }
    rewrite INR_IZR_INZ, Z2Nat.id by auto. lra.
  - intros x H. cbn [to_u32 rlm3]. destruct (Rlt_dec x (2 ^ 32)); [exfalso; lra|]. eexists; reflexivity.
Qed.
Example C82_example : converts rlm3 /\ ~ near (P 1 0) (P 0 0) /\ poly_contains ROps (rect 0 0 2 1) (P 1 (1 / 2)) = true /\
  fst (mbind ROps nat (exec ROps rlm nat Nat.eqb (DrawRectangle (P 0 0) (P 2 1))) (fun _ => exec ROps rlm nat Nat.eqb (DrawRegion (P 1 (1 / 2)) 7%nat)) (empty_drawing ROps nat)) =
    one_rect 7%nat (P 1 (1 / 2)) 0 0 2 1 /\
  exists d' s, refineMeshAroundMagnets ROps rlm3 nat (fun _ => P 1 0) (one_rect 7%nat (P 1 (1 / 2)) 0 0 2 1) = (d', NonFin s).
Proof.
  assert (N : ~ near (P 1 0) (P 0 0)).
  { unfold near, tol9. intros H. pose proof (dist_sq (P 1 0) (P 0 0)) as D. rewrite !px_P, !py_P in D. pose proof (dist_nonneg (P 1 0) (P 0 0)).
    assert (/ 10 ^ 9 < 1) by (rewrite <- Rinv_1; apply Rinv_lt_contravar; lra). nra. }
  assert (C : poly_contains ROps (rect 0 0 2 1) (P 1 (1 / 2)) = true) by (apply C22_rectangle; rewrite ?px_P, ?py_P; lra).
  split; [apply rlm3_converts|]. split; auto. split; auto. split; [unfold mbind; rewrite sheet_drawn; reflexivity|].
  apply C82_rectangle_refuted; auto using rlm3_converts; try lra.
  - rewrite !Rabs_right by lra. lra.
  - rewrite Rabs_right by lra. cbn [dbl_max ROps]. assert (1 <= 2 - / 2 ^ 52) by (assert (/ 2 ^ 52 <= 1); [rewrite <- Rinv_1; apply Rinv_le_contravar; [lra|apply pow_R1_Rle; lra]|lra]).
    assert (2 <= 2 ^ 1023). { replace 1023%nat with (1 + 1022)%nat by lia. rewrite pow_add. pose proof (pow_R1_Rle 2 1022). lra. } nra.
Qed.
(** with binary64 arithmetic the feature size becomes about 1e-16 and the number of steps no longer fits into uint32_t *)
Definition u32_of_float (x : spec_float) : res nat :=
  match x with
  | S754_zero _ => Ok O
  | S754_finite false m e => let z := Z.shiftl (Zpos m) e in if Z.ltb z (2 ^ 32) then Ok (Z.to_nat z) else UB "not a uint32_t"
  | _ => UB "not a uint32_t"
  end.
Definition flm3 : libm FOps :=
  mkLibm FOps (fun x => x) (fun x => x) (fun _ _ => zero FOps) (one FOps) (S754_finite false (2 ^ 52)%positive (-352)) (one FOps) u32_of_float.
Theorem C82_ieee_refuted : exists d : drawing FOps nat, reached FOps flm nat Nat.eqb d /\ is_ub (snd (refineMeshAroundMagnets FOps flm3 nat (fun _ => FP 0 1) d)).
Proof.
  exists (fst (runs [DrawRectangle (FP 0 0) (FP 4 4); DrawRegion (FP 1 1) 7%nat] fempty)). split; [apply runs_reached; [apply reached_new|vm_compute; auto]|].
  set (r := snd _). assert (E : match r with UB _ => true | _ => false end = true) by (vm_compute; reflexivity). destruct r; try discriminate E. eexists; reflexivity.
Qed.
Print Assumptions C82_ieee_refuted.
(** *** C81 in IEEE arithmetic: corners moved beyond the largest double do not compare equal to themselves any more, and
    addRefiningPoints throws what it throws when two segments have no common end *)
Theorem C81_ieee_refuted : exists d : drawing FOps nat, reached FOps flm nat Nat.eqb d /\ snd (exec FOps flm nat Nat.eqb AddRefiningPoints d) = Throw "Error: segment not found".
Proof.
  exists (fst (runs [DrawRectangle (FP 0 0) (FP 4 4); Translate (@mkV FOps (dbl_max FOps) (zero FOps)); Translate (@mkV FOps (dbl_max FOps) (zero FOps))] fempty)).
  split; [apply runs_reached; [apply reached_new|vm_compute; auto]|vm_compute; reflexivity].
Qed.
Print Assumptions C81_ieee_refuted.
