(** Generating a system more than once. *)
From Coq Require Import String.
From Coq Require Import List Arith ZArith NArith Bool Lia Permutation.
From Coq Require Import Reals Lra.
From Verif Require Import Base AlgebraModel SolversSpec Solvers_bridge GeometryModel GeometrySpec Geometry_proofs Circle_proofs Polygon_proofs Segment_proofs.
From Verif Require Import DrawingModel DrawingSpec Drawing_proofs DrawingR_proofs SetupModel SetupSpec Setup_proofs Setup2_proofs LayersModel RingSpec AgainSpec Props_Setup Props_Ring.
Import ListNotations.
Local Open Scope R_scope.

(** ** the corners of a regular polygon add up to zero *)
Lemma sums_app : forall l l' : list pt, sumx (l ++ l') = sumx l + sumx l' /\ sumy (l ++ l') = sumy l + sumy l'.
Proof. intros l l'. induction l as [|p l [IH1 IH2]]; cbn [app sumx sumy]; [split; ring|]. rewrite IH1, IH2. split; ring. Qed.
Lemma partial_sums : forall r n k, (3 <= n)%nat -> 0 < r ->
  2 * sin (PI / INR n) * sumx (map (circle_vertex org r n) (seq 0 k)) = r * (sin ((2 * INR k - 1) * (PI / INR n)) + sin (PI / INR n)) /\
  2 * sin (PI / INR n) * sumy (map (circle_vertex org r n) (seq 0 k)) = r * (cos (PI / INR n) - cos ((2 * INR k - 1) * (PI / INR n))).
Proof.
  intros r n k n3 r0. set (t := PI / INR n). induction k as [|k [IH1 IH2]].
  - cbn [seq map sumx sumy INR]. replace ((2 * 0 - 1) * t) with (- t) by ring. rewrite sin_neg, cos_neg. split; ring.
  - rewrite seq_S, map_app. cbn [map Nat.add]. destruct (sums_app (map (circle_vertex org r n) (seq 0 k)) [circle_vertex org r n k]) as [-> ->]. cbn [sumx sumy].
    rewrite v_px, v_py. fold t. rewrite !Rmult_plus_distr_l, IH1, IH2. rewrite S_INR. replace ((2 * (INR k + 1) - 1) * t) with (2 * INR k * t + t) by ring. replace ((2 * INR k - 1) * t) with (2 * INR k * t - t) by ring.
    rewrite sin_plus, sin_minus, cos_plus, cos_minus. split; ring.
Qed.
Lemma ring_sums : forall r n, (3 <= n)%nat -> 0 < r -> sumx (map (circle_vertex org r n) (seq 0 n)) = 0 /\ sumy (map (circle_vertex org r n) (seq 0 n)) = 0.
Proof.
  intros r n n3 r0. destruct (partial_sums r n n n3 r0) as [H1 H2]. pose proof (sin_t_pos n n3) as SP. set (t := PI / INR n) in *.
  assert (E : (2 * INR n - 1) * t = - t + 2 * INR 1 * PI) by (assert (INR n * t = PI) by (unfold t; apply nt; exact n3); cbn [INR]; lra).
  rewrite E, sin_period, cos_period, sin_neg, cos_neg in *. split; [assert (2 * sin t * sumx (map (circle_vertex org r n) (seq 0 n)) = 0) by lra|assert (2 * sin t * sumy (map (circle_vertex org r n) (seq 0 n)) = 0) by lra];
    (apply Rmult_eq_reg_l with (2 * sin t); lra).
Qed.
Lemma moved_sums : forall v l, sumx (map (shift v) l) = sumx l + INR (length l) * px v /\ sumy (map (shift v) l) = sumy l + INR (length l) * py v.
Proof. intros v l. induction l as [|p l [IH1 IH2]]; [cbn; split; ring|]. cbn [map sumx sumy length]. rewrite IH1, IH2, S_INR. unfold shift at 1 2. rewrite px_P, py_P. split; ring. Qed.

(** ** one call *)
Section Call.
Variable lm : libm ROps.
Hypothesis exact : exact_libm lm.
Hypothesis trunc : truncates lm.
Variable A : Type.
Variable peq : A -> A -> bool.
Variable air : A.
Variable mag : A -> pt.
Notation drawing := (drawing ROps A).

Lemma setup_wf : forall area (d d' : drawing) x, well_formed d -> setup ROps lm A peq air mag false false area d = (d', Ok x) -> well_formed d'.
Proof.
  intros area d d' x W H. unfold setup, mbind, mget, mlift, mret in H.
  destruct (boundary_circle ROps (points d)) as [cr| | |]; try discriminate.
  pose proof (wf_translate ROps A (vneg ROps (fst cr)) d W) as W1. destruct (translate ROps A (vneg ROps (fst cr)) d) as [d1 [[]| | |]]; try discriminate.
  destruct (boundary_points ROps lm (snd cr) area) as [n| | |]; try discriminate.
  pose proof (wf_exec ROps lm A peq total_ROps (DrawCircle (vzero ROps) (snd cr) n) (fun f => f) d1 W1) as W2. cbn [exec] in W2.
  destruct (drawCircle ROps lm A (vzero ROps) (snd cr) n d1) as [d2 [[]| | |]]; try discriminate.
  destruct (air_seed ROps (snd cr)) as [sd| | |]; try discriminate.
  pose proof (wf_region ROps A peq sd air d2 W2) as W3. destruct (drawRegion ROps A peq sd air d2) as [d3 [[]| | |]]; try discriminate.
  injection H as <- <-. exact W3.
Qed.
Definition c0 (d : drawing) : pt := centroid (points d).
(** what a call needs of the drawing, and what it leaves *)
Definition fit (d : drawing) (m s area : R) : Prop :=
  well_formed d /\ points d <> [] /\ reach (points d) m /\ equilateral s area /\ dist (c0 d) org <= m / 4 /\ s <= 2 * m /\ m <= 10 ^ 8 * s /\ 4 * tol9 <= s /\ 16 * tol9 <= m.
Lemma one_setup : forall d m s area, fit d m s area ->
  exists d' n, setup ROps lm A peq air mag false false area d = (d', Ok (c0 d, 3 / 2 * m, n)) /\ INR n <= 6 * PI * m / s < INR n + 1 /\
    points d' = map (shift (P (- px (c0 d)) (- py (c0 d)))) (points d) ++ map (circle_vertex org (3 / 2 * m) n) (seq 0 n) /\
    (exists id a, regions d' = map (fun r => (shift (P (- px (c0 d)) (- py (c0 d))) (fst r), snd r)) (regions d) ++ [(P (27 / 20 * m) 0, id)] /\ nth_error (region_map d') id = Some a /\ (a = air \/ peq a air = true)) /\
    well_formed d' /\ points d' <> [] /\ reach (points d') (3 / 2 * m) /\ c0 d' = org.
Proof.
  intros d m s area [W [NE [RE [EQ [C [SM [MS [ST MT]]]]]]]].
  destruct (C63_usual lm A peq air mag d area m s exact trunc W NE RE EQ C SM MS ST MT) as [n [d' [NU [ES [[[PA _] [[id [a [RA RB]]] _]] _]]]]].
  destruct (usual_sizes m s n (proj1 EQ) SM MS ST MT NU) as [_ [n3 _]].
  assert (M0 : 0 < m) by (pose proof tol9_pos; lra). assert (R0 : 0 < 3 / 2 * m) by lra.
  exists d', n. split; [exact ES|]. split; [exact NU|]. cbn [points moved regions] in PA, RA. fold (c0 d) in PA, RA. split; [exact PA|]. split; [exists id, a; split; [exact RA|exact RB]|].
  split; [exact (setup_wf _ _ _ _ W ES)|].
  assert (N0 : points d' <> []) by (rewrite PA; destruct (points d); [congruence|discriminate]). split; [exact N0|].
  split.
  - split.
    + intros p Hp. rewrite PA in Hp. apply in_app_or in Hp. destruct Hp as [Hp|Hp]; apply in_map_iff in Hp; destruct Hp as [q [<- Hq]].
      * change (dist (shift (Setup2_proofs.opposite (c0 d)) q) org <= 3 / 2 * m). rewrite moved_dist. pose proof (dist_tri q org (c0 d)) as Tr. rewrite (dist_sym org) in Tr. pose proof (proj1 RE q Hq). lra.
      * right. apply v_radius; auto.
    + exists (circle_vertex org (3 / 2 * m) n 0). split; [|apply v_radius; auto]. rewrite PA. apply in_or_app. right. apply in_map, in_seq. lia.
  - assert (Z : sumx (points d') = 0 /\ sumy (points d') = 0).
    { rewrite PA. destruct (sums_app (map (shift (P (- px (c0 d)) (- py (c0 d)))) (points d)) (map (circle_vertex org (3 / 2 * m) n) (seq 0 n))) as [-> ->].
      destruct (ring_sums (3 / 2 * m) n n3 R0) as [-> ->]. destruct (moved_sums (P (- px (c0 d)) (- py (c0 d))) (points d)) as [-> ->]. rewrite px_P, py_P. unfold c0, centroid. rewrite px_P, py_P.
      assert (INR (length (points d)) <> 0) by (apply not_0_INR; destruct (points d); [congruence|discriminate]). split; field; auto. }
    unfold c0, centroid. destruct Z as [-> ->]. unfold org. f_equal; unfold Rdiv; ring.
Qed.
Lemma shift_org : forall l : list pt, map (shift (P (- px org) (- py org))) l = l.
Proof. intros l. rewrite <- map_id. apply map_ext. intros p. apply pt_ext; unfold shift, org; rewrite ?px_P, ?py_P; ring. Qed.
Lemma later_calls : forall areas d m, well_formed d -> points d <> [] -> reach (points d) m -> c0 d = org -> 16 * tol9 <= m -> moderate m areas ->
  exists xs d', generated lm peq air mag d areas xs d' /\ length xs = length areas /\
    (forall j area c r n, nth_error areas j = Some area -> nth_error xs j = Some (c, r, n) -> c = org /\ grown m area j r n) /\
    points d' = points d ++ flat_map (fun x => map (circle_vertex org (snd (fst x)) (snd x)) (seq 0 (snd x))) xs /\ well_formed d'.
Proof.
  intros areas. induction areas as [|area areas IH]; intros d m W NE RE C MT MO.
  - exists [], d. split; [constructor|]. split; [reflexivity|]. split; [intros [|j] ? ? ? ? H; discriminate|]. split; [cbn; rewrite app_nil_r; reflexivity|exact W].
  - destruct (MO 0%nat area eq_refl) as [s [EQ [SM [MS ST]]]]. cbn [pow] in SM, MS. rewrite Rmult_1_l in SM, MS.
    assert (M0 : 0 < m) by (pose proof tol9_pos; lra).
    assert (F : fit d m s area). { repeat (split; [assumption|]). split; [rewrite C; unfold dist; rewrite !Rminus_diag_eq by reflexivity; rewrite Rmult_0_l, Rplus_0_r, sqrt_0; lra|]. auto. }
    destruct (one_setup d m s area F) as [d1 [n [ES [NU [PA [_ [W1 [N1 [RE1 C1]]]]]]]]]. rewrite C in ES, PA. rewrite shift_org in PA.
    destruct (IH d1 (3 / 2 * m) W1 N1 RE1 C1) as [xs [d' [G [LX [HX [PX W']]]]]]; [lra| |].
    + intros j a Hj. destruct (MO (S j) a Hj) as [s' [EQ' [SM' [MS' ST']]]]. exists s'. cbn [pow] in SM', MS'. replace ((3 / 2) ^ j * (3 / 2 * m)) with (3 / 2 * (3 / 2) ^ j * m) by ring. auto.
    + exists ((org, 3 / 2 * m, n) :: xs), d'. split; [econstructor; eauto|]. split; [cbn [length]; congruence|]. split.
      * intros [|j] a c r k Ha Hx; cbn [nth_error] in Ha, Hx.
        -- injection Ha as <-. injection Hx as <- <- <-. split; [reflexivity|]. split; [cbn [pow]; ring|]. intros s2 [S2 EQ2].
           assert (s2 = s). { destruct EQ as [S1 EQ]. pose proof sqrt3_pos. assert (s2 * s2 = s * s) by (apply Rmult_eq_reg_l with (sqrt 3 / 4); lra). nra. }
           subst s2. replace (4 * PI * (3 / 2 * m) / s) with (6 * PI * m / s) by (field; lra). exact NU.
        -- destruct (HX j a c r k Ha Hx) as [-> [-> K]]. split; [reflexivity|]. split; [cbn [pow]; ring|exact K].
      * split; [|exact W']. rewrite PX, PA. cbn [flat_map fst snd]. rewrite app_assoc. reflexivity.
Qed.
End Call.

(** ** interconnections *)
Section Links.
Variable A : Type.
Notation drawing := (drawing ROps A).
Lemma kept_nth : forall (l l' : list pt) i a, nth_error l i = Some a -> nth_error (l ++ l') i = Some a.
Proof. intros l l' i a H. rewrite nth_error_app1; auto. apply nth_error_Some. congruence. Qed.
Lemma sound_kept : forall d d' : drawing, only_adds_points d d' -> sound d -> sound d'.
Proof.
  intros d d' [[l PE] [SE _]] H s Hs. rewrite SE in Hs. destruct (H s Hs) as [a [b [Ha [Hb N]]]]. exists a, b. rewrite PE. split; [apply kept_nth; auto|]. split; [apply kept_nth; auto|auto].
Qed.
Lemma dists_kept : forall d d' : drawing, only_adds_points d d' -> sound d -> forall p x,
  (exists s a b, In s (segments d') /\ nth_error (points d') (fst s) = Some a /\ nth_error (points d') (snd s) = Some b /\ segment_distance p a b x) <->
  (exists s a b, In s (segments d) /\ nth_error (points d) (fst s) = Some a /\ nth_error (points d) (snd s) = Some b /\ segment_distance p a b x).
Proof.
  intros d d' [[l PE] [SE _]] H p x. rewrite SE, PE. split; intros [s [a [b [Hs [Ha [Hb D]]]]]]; exists s, a, b; (split; [exact Hs|]).
  - destruct (H s Hs) as [a' [b' [Ha' [Hb' _]]]]. rewrite (kept_nth _ l _ _ Ha') in Ha. rewrite (kept_nth _ l _ _ Hb') in Hb. injection Ha as <-. injection Hb as <-. auto.
  - split; [apply kept_nth; auto|]. split; [apply kept_nth; auto|exact D].
Qed.
Lemma clear_kept : forall d d' : drawing, only_adds_points d d' -> sound d -> forall p c, clear_of d' p c -> clear_of d p c.
Proof.
  intros d d' O H p c [C1 [C2 C3]]. pose proof (dists_kept d d' O H p) as K. split; [exact C1|]. split; [intros x Hx; apply C2, K, Hx|]. destruct C3 as [C3|C3]; [left; exact C3|right; apply K, C3].
Qed.
Lemma clear_unique : forall (d : drawing) p c c', clear_of d p c -> clear_of d p c' -> c = c'.
Proof.
  intros d p c c' [A1 [A2 A3]] [B1 [B2 B3]]. apply Rle_antisym.
  - destruct B3 as [->|B3]; [exact A1|apply A2, B3].
  - destruct A3 as [->|A3]; [exact B1|apply B2, A3].
Qed.
Lemma clears_unique : forall (d : drawing) ps cs cs', Forall2 (clear_of d) ps cs -> Forall2 (clear_of d) ps cs' -> cs = cs'.
Proof.
  intros d ps cs cs' H. revert cs'. induction H as [|p c ps cs Hc H IH]; intros cs' H'; inversion H' as [|? c' ? cs2 Hc' H2]; subst; [reflexivity|]. f_equal; [eapply clear_unique; eauto|apply IH; auto].
Qed.
Lemma adds_trans : forall d d1 d2 : drawing, only_adds_points d d1 -> only_adds_points d1 d2 -> only_adds_points d d2.
Proof.
  intros d d1 d2 [[l P1] [S1 [R1 [M1 G1]]]] [[l' P2] [S2 [R2 [M2 G2]]]]. split; [exists (l ++ l'); rewrite P2, P1, app_assoc; reflexivity|]. repeat split; congruence.
Qed.
Lemma calls_again : forall lm, exact_libm lm -> forall links k (ds : list drawing),
  Forall (fun l : link ROps => (k_layer1 l < length ds /\ k_layer2 l < length ds)%nat) links -> (forall d, In d ds -> sound d) ->
  exists ds', relinked lm links k ds ds' /\ length ds' = length ds /\
    forall l d, nth_error ds l = Some d -> exists d' cs blocks, nth_error ds' l = Some d' /\ only_adds_points d d' /\ Forall2 (clear_of d) (ends links l) cs /\
      length blocks = k /\ Forall (fun b => Permutation b (link_points links l cs)) blocks /\ points d' = points d ++ concat blocks.
Proof.
  intros lm E links k. induction k as [|k IH]; intros ds HL HS.
  - exists ds. split; [constructor|]. split; [reflexivity|]. intros l d Hd. destruct (C66_points A lm E links ds HL HS) as [ds' [_ [_ H]]]. destruct (H l d Hd) as [d' [new [cs [_ [_ [_ [F _]]]]]]].
    exists d, cs, []. split; [exact Hd|]. split; [repeat (split; [exists []; rewrite app_nil_r; reflexivity|]); auto|]. split; [exact F|]. split; [reflexivity|]. split; [constructor|cbn; rewrite app_nil_r; reflexivity].
  - destruct (C66_points A lm E links ds HL HS) as [ds1 [E1 [L1 H1]]].
    assert (HS1 : forall d, In d ds1 -> sound d).
    { intros d1 I. apply In_nth_error in I. destruct I as [l Hl]. assert (LT : (l < length ds1)%nat) by (apply nth_error_Some; congruence). rewrite L1 in LT. destruct (nth_error ds l) as [d|] eqn:Hd; [|apply nth_error_None in Hd; lia].
      destruct (H1 l d Hd) as [d' [new [cs [Hd' [O _]]]]]. rewrite Hl in Hd'. injection Hd' as <-. apply (sound_kept d d1 O). apply HS. eapply nth_error_In; eauto. }
    destruct (IH ds1) as [ds' [G [L' H']]]; [rewrite L1; exact HL|exact HS1|].
    exists ds'. split; [econstructor; eauto|]. split; [congruence|]. intros l d Hd. destruct (H1 l d Hd) as [d1 [new [cs [Hd1 [O [P1 [F PM]]]]]]]. destruct (H' l d1 Hd1) as [d' [cs' [blocks [Hd' [O' [F' [LB [FB PB]]]]]]]].
    assert (SD : sound d) by (apply HS; eapply nth_error_In; eauto).
    assert (F2 : Forall2 (clear_of d) (ends links l) cs') by (clear - F' O SD; induction F' as [|p c ps cs Hc F' IH]; constructor; auto; eapply clear_kept; eauto).
    rewrite <- (clears_unique d _ _ _ F F2) in *. exists d', cs, ((ends links l ++ new) :: blocks). split; [exact Hd'|]. split; [eapply adds_trans; eauto|]. split; [exact F|]. split; [cbn [length]; congruence|].
    split; [constructor; [unfold link_points; apply Permutation_app_head; exact PM|exact FB]|]. rewrite PB, P1. cbn [concat]. rewrite <- !app_assoc. reflexivity.
Qed.
End Links.
