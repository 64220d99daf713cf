(** Proofs about the drawing code in exact arithmetic (C27, C28, C30, C32, C57, C58). *)
From Coq Require Import String.
From Coq Require Import List Arith ZArith NArith Bool Lia.
From Coq Require Import Reals Lra.
From Verif Require Import Base AlgebraModel SolversSpec GeometryModel GeometrySpec Geometry_proofs Circle_proofs Polygon_proofs Segment_proofs.
From Verif Require Import DrawingModel DrawingSpec Drawing_proofs.
Import ListNotations.
Local Open Scope R_scope.

Lemma near_iff : forall q p : pt, matches ROps q p <-> near q p.
Proof.
  intros. unfold matches, near. rewrite vec_eqb_R. split; intros H.
  - injection H as H1. apply Rltb_true. exact H1.
  - f_equal. apply Rltb_true. exact H.
Qed.
Lemma not_near_iff : forall q p : pt, vec_eqb ROps q p = Ok false <-> ~ near q p.
Proof.
  intros. unfold near. rewrite vec_eqb_R. split; intros H.
  - injection H as H1. apply Rltb_false in H1. unfold tol9, eps9R in *. lra.
  - f_equal. apply Rltb_false. unfold tol9, eps9R in *. lra.
Qed.
Lemma near_sym : forall p q, near p q -> near q p.
Proof. intros p q. unfold near. rewrite dist_sym. auto. Qed.
Lemma near_self : forall p, near p p.
Proof. intros p. unfold near, tol9. rewrite dist_self. apply Rinv_0_lt_compat, pow_lt. lra. Qed.

Section DR.
Variable lm : libm ROps.
Variable A : Type.
Variable peq : A -> A -> bool.
Notation drawing := (drawing ROps A).

Lemma find_R : forall (l : list pt) i p f, exists r, find_point ROps l i p f = Ok r.
Proof.
  induction l as [|q l IH]; intros i p f; cbn [find_point]; [eauto|].
  rewrite vec_eqb_R. cbn [bind]. apply IH.
Qed.

Lemma drawSegment_R : forall p1 p2 (d : drawing), exists i1 i2 l1 l2,
  placed ROps (points d) (points d) p1 i1 l1 /\ placed ROps (points d) (points d ++ l1) p2 i2 l2 /\
  let pts := points d ++ l1 ++ l2 in
  drawSegment ROps lm A p1 p2 d =
    match check_segments ROps lm pts p1 p2 (i1, i2) (segments d) with
    | Ok true => (after ROps A d pts (segments d ++ [(i1, i2)]), Ok tt)
    | Ok false => (after ROps A d pts (segments d), Ok tt)
    | Throw s => (after ROps A d pts (segments d), Throw s)
    | UB s => (after ROps A d pts (segments d), UB s)
    | NonFin s => (after ROps A d pts (segments d), NonFin s)
    end.
Proof.
  intros p1 p2 d. destruct (drawSegment ROps lm A p1 p2 d) as [d' r] eqn:E.
  apply drawSegment_cases in E. destruct E as [[_ [p [_ [e [St [Ef _]]]]]]|[i1 [i2 [l1 [l2 [P1 [P2 H]]]]]]].
  - destruct (find_R (points d) 0 p None) as [x Hx]. rewrite Hx in Ef. subst e. destruct St.
  - exists i1, i2, l1, l2. split; auto. split; auto. cbv zeta in *.
    destruct (check_segments ROps lm (points d ++ l1 ++ l2) p1 p2 (i1, i2) (segments d)) as [[]|s|s|s]; destruct H; subst; auto.
Qed.

(** where the two ends are *)
Lemma placed_at : forall (pts l0 : list pt) p i l l', placed ROps pts (pts ++ l0) p i l ->
  exists q, nth_error (pts ++ l0 ++ l ++ l') i = Some q /\ near q p.
Proof.
  intros pts l0 p i l l' [[-> [q [H1 H2]]]|[-> [-> _]]].
  - exists q. split; [|apply near_iff; auto]. rewrite nth_error_app1; auto. apply nth_error_Some. congruence.
  - exists p. split; [|apply near_self]. rewrite app_assoc. rewrite nth_error_app2 by lia. rewrite Nat.sub_diag. reflexivity.
Qed.
Lemma placed_at1 : forall (pts : list pt) p i l l', placed ROps pts pts p i l ->
  exists q, nth_error (pts ++ l ++ l') i = Some q /\ near q p.
Proof.
  intros pts p i l l' H. assert (H' : placed ROps pts (pts ++ []) p i l) by (rewrite app_nil_r; auto).
  apply (placed_at _ _ _ _ _ l') in H'. exact H'.
Qed.
Lemma placed_at2 : forall (pts l0 : list pt) p i l, placed ROps pts (pts ++ l0) p i l ->
  exists q, nth_error (pts ++ l0 ++ l) i = Some q /\ near q p.
Proof. intros pts l0 p i l H. apply (placed_at _ _ _ _ _ []) in H. rewrite app_nil_r in H. exact H. Qed.

Definition grows (d d' : drawing) : Prop := (exists l, points d' = points d ++ l) /\ (exists l, segments d' = segments d ++ l).
Lemma grows_refl : forall d, grows d d.
Proof. intros d. split; exists []; rewrite app_nil_r; auto. Qed.
Lemma grows_trans : forall a b c, grows a b -> grows b c -> grows a c.
Proof.
  intros a b c [[l1 H1] [l2 H2]] [[l3 H3] [l4 H4]]. split; [exists (l1 ++ l3); rewrite H3, H1, app_assoc|exists (l2 ++ l4); rewrite H4, H2, app_assoc]; auto.
Qed.
Lemma oa_grows : forall d d' : drawing, only_adds d d' -> grows d d'.
Proof. intros d d' [H1 [H2 _]]. split; auto. Qed.
Lemma nth_grow : forall B (l l' : list B) i x, nth_error l i = Some x -> nth_error (l ++ l') i = Some x.
Proof. intros. rewrite nth_error_app1; auto. apply nth_error_Some. congruence. Qed.
Lemma drawn_mono : forall d d' a b, grows d d' -> drawn d a b -> drawn d' a b.
Proof.
  intros d d' a b [[l1 H1] [l2 H2]] [s [p [q [Hs [Hp [Hq Hn]]]]]]. exists s, p, q.
  rewrite H1, H2. split; [apply in_or_app; auto|]. split; [apply nth_grow; auto|]. split; [apply nth_grow; auto|auto].
Qed.
Lemma drawn_sym : forall (d : drawing) a b, drawn d a b -> drawn d b a.
Proof. intros d a b [s [p [q [H1 [H2 [H3 H4]]]]]]. exists s, p, q. tauto. Qed.

Lemma drawSegment_drawn : forall p1 p2 d d', drawSegment ROps lm A p1 p2 d = (d', Ok tt) -> drawn d' p1 p2.
Proof.
  intros p1 p2 d d' H. destruct (drawSegment_R p1 p2 d) as [i1 [i2 [l1 [l2 [P1 [P2 E]]]]]]. cbv zeta in E. rewrite E in H. clear E.
  destruct (placed_at1 _ _ _ _ l2 P1) as [q1 [N1 M1]]. destruct (placed_at2 _ _ _ _ _ P2) as [q2 [N2 M2]].
  pose proof (check_false ROps lm (points d ++ l1 ++ l2) p1 p2 (i1, i2) (segments d)) as CF.
  destruct (check_segments ROps lm (points d ++ l1 ++ l2) p1 p2 (i1, i2) (segments d)) as [[]|s|s|s]; inversion H; subst d'; cbn.
  - exists (i1, i2), q1, q2. cbn. split; [apply in_or_app; right; left; auto|]. auto.
  - destruct (CF eq_refl) as [s [Hs Se]]. destruct Se as [[S1 S2]|[S1 S2]]; cbn in S1, S2.
    + exists s, q1, q2. cbn. rewrite S1, S2. repeat (split; auto).
    + exists s, q2, q1. cbn. rewrite S1, S2. repeat (split; auto).
Qed.

(** ** outlines *)
Lemma seg_grows : forall p q d d' r, drawSegment ROps lm A p q d = (d', r) -> grows d d'.
Proof. intros p q d d' r H. apply oa_grows. pose proof (r_drawSegment ROps lm A p q d) as K. rewrite H in K. exact K. Qed.

Definition all_drawn (d : drawing) (l : list (pt * pt)) : Prop := forall a b, In (a, b) l -> drawn d a b.
Lemma all_drawn_mono : forall d d' l, grows d d' -> all_drawn d l -> all_drawn d' l.
Proof. intros d d' l H H1 a b Hi. eapply drawn_mono; eauto. Qed.

Lemma rect_done : forall p q d d', drawRectangle ROps lm A p q d = (d', Ok tt) ->
  all_drawn d' (edges [p; P (px q) (py p); q; P (px p) (py q)]) /\ grows d d' /\ polygons d' = polygons d ++ [[p; P (px q) (py p); q; P (px p) (py q)]].
Proof.
  intros p q d d' H. unfold drawRectangle, mbind in H. change (mkV (vx q) (vy p)) with (P (px q) (py p)) in H. change (mkV (vx p) (vy q)) with (P (px p) (py q)) in H.
  pose proof (r_drawSegment ROps lm A p (P (px q) (py p)) d) as O1.
  destruct (drawSegment ROps lm A p (P (px q) (py p)) d) as [d1 [[]|s|s|s]] eqn:E1; try discriminate.
  pose proof (r_drawSegment ROps lm A (P (px q) (py p)) q d1) as O2.
  destruct (drawSegment ROps lm A (P (px q) (py p)) q d1) as [d2 [[]|s|s|s]] eqn:E2; try discriminate.
  pose proof (r_drawSegment ROps lm A q (P (px p) (py q)) d2) as O3.
  destruct (drawSegment ROps lm A q (P (px p) (py q)) d2) as [d3 [[]|s|s|s]] eqn:E3; try discriminate.
  pose proof (r_drawSegment ROps lm A (P (px p) (py q)) p d3) as O4.
  destruct (drawSegment ROps lm A (P (px p) (py q)) p d3) as [d4 [[]|s|s|s]] eqn:E4; try discriminate.
  cbn [fst] in *. cbn in H. injection H as <-.
  apply drawSegment_drawn in E1. apply drawSegment_drawn in E2. apply drawSegment_drawn in E3. apply drawSegment_drawn in E4.
  assert (G5 : grows d4 (mkD (region_map d4) (regions d4) (points d4) (segments d4) (polygons d4 ++ [[p; P (px q) (py p); q; P (px p) (py q)]]))).
  { split; cbn; exists []; rewrite app_nil_r; auto. }
  pose proof (oa_grows _ _ O2) as G2. pose proof (oa_grows _ _ O3) as G3. pose proof (oa_grows _ _ O4) as G4.
  split; [|split].
  - intros a b Hi. cbn [edges combine app In] in Hi.
    destruct Hi as [Hi|[Hi|[Hi|[Hi|[]]]]]; injection Hi as <- <-; (apply (drawn_mono d4); [exact G5|]).
    + eapply drawn_mono; [|exact E1]. eauto using grows_trans.
    + eapply drawn_mono; [|exact E2]. eauto using grows_trans.
    + eapply drawn_mono; [|exact E3]. eauto using grows_trans.
    + exact E4.
  - eauto 8 using grows_trans, oa_grows.
  - cbn. f_equal. destruct O1 as [_ [_ [_ [_ O1]]]], O2 as [_ [_ [_ [_ O2]]]], O3 as [_ [_ [_ [_ O3]]]], O4 as [_ [_ [_ [_ O4]]]]. congruence.
Qed.

Lemma polyloop_done : forall l n a d d', polygon_loop ROps lm A l n a d = (d', Ok tt) ->
  forall i p q, (a <= i < a + n)%nat -> nth_error l i = Some p -> nth_error l (i + 1) = Some q -> drawn d' p q.
Proof.
  intros l n. induction n as [|n IH]; intros a d d' H i p q Hi Hp Hq; [lia|].
  cbn [polygon_loop] in H. unfold mbind at 1, mlift at 1 in H. destruct (get l a) as [x|s|s|s] eqn:Ga; try discriminate.
  unfold mbind at 1, mlift at 1 in H. destruct (get l (a + 1)) as [y|s|s|s] eqn:Gb; try discriminate.
  unfold mbind at 1 in H. destruct (drawSegment ROps lm A x y d) as [d1 [[]|s|s|s]] eqn:E; try discriminate.
  destruct (Nat.eq_dec i a) as [->|Ne].
  - unfold get in Ga, Gb. rewrite Hp in Ga. rewrite Hq in Gb. inversion Ga; inversion Gb; subst.
    apply drawSegment_drawn in E. eapply drawn_mono; eauto. apply oa_grows. pose proof (r_polygon_loop ROps lm A l n (S a) d1) as K. rewrite H in K. exact K.
  - eapply IH; eauto. lia.
Qed.
Lemma combine_nth_in : forall B C (l : list B) (m : list C) a b, In (a, b) (combine l m) -> exists i, nth_error l i = Some a /\ nth_error m i = Some b.
Proof.
  induction l as [|x l IH]; intros m a b H; [destruct H|]. destruct m as [|y m]; [destruct H|]. destruct H as [H|H].
  - inversion H. exists O. auto.
  - destruct (IH _ _ _ H) as [i K]. exists (S i). auto.
Qed.
Lemma edges_nth : forall (l : list pt) a b, In (a, b) (edges l) -> exists i, nth_error l i = Some a /\
  ((nth_error l (i + 1) = Some b) \/ (i = length l - 1 /\ nth_error l 0 = Some b))%nat.
Proof.
  intros [|x l] a b H; [destruct H|]. unfold edges in H. apply combine_nth_in in H. destruct H as [i [H1 H2]]. exists i. split; auto.
  destruct (Nat.lt_ge_cases i (length l)).
  - left. rewrite nth_error_app1 in H2 by auto. replace (i + 1)%nat with (S i) by lia. auto.
  - right. rewrite nth_error_app2 in H2 by auto. assert ((i < S (length l))%nat) by (apply (nth_error_Some (x :: l)); congruence).
    replace (i - length l)%nat with O in H2 by lia. simpl in *. split; [lia|auto].
Qed.
Lemma u32_id : forall n, is_u32 n -> u32 n = n.
Proof. intros n H. unfold u32. unfold is_u32 in H. rewrite N.mod_small; lia. Qed.
Lemma poly_done : forall l d d', is_u32 (length l) -> drawPolygon ROps lm A l d = (d', Ok tt) ->
  all_drawn d' (edges l) /\ grows d d' /\ polygons d' = polygons d ++ [l].
Proof.
  intros l d d' Hl H. unfold drawPolygon in H. cbv zeta in H. rewrite (u32_id _ Hl) in H.
  destruct l as [|x l0].
  { exfalso. pose proof (empty_polygon_ub ROps lm A [] d eq_refl) as U. unfold drawPolygon in U. cbv zeta in U.
    rewrite (u32_id _ Hl) in U. rewrite H in U. destruct U as [s U]. discriminate. }
  set (l := x :: l0) in *. assert (Hn : length l <> 0%nat) by (unfold l; simpl; lia).
  rewrite (u32_sub_pos (length l) Hn Hl) in H.
  pose proof (r_polygon_loop ROps lm A l (length l - 1) 0 d) as O1. pose proof (polyloop_done l (length l - 1) 0 d) as PD.
  unfold mbind at 1 in H. destruct (polygon_loop ROps lm A l (length l - 1) 0 d) as [d1 [[]|s|s|s]] eqn:E; try discriminate.
  specialize (PD _ eq_refl). cbn [fst] in O1.
  unfold mbind at 1, mlift at 1 in H. destruct (get l (length l - 1)) as [p|s|s|s] eqn:Gp; try discriminate.
  unfold mbind at 1, mlift at 1 in H. destruct (get l 0) as [q|s|s|s] eqn:Gq; try discriminate.
  unfold mbind at 1 in H. pose proof (r_drawSegment ROps lm A p q d1) as O2. destruct (drawSegment ROps lm A p q d1) as [d2 [[]|s|s|s]] eqn:E2; try discriminate.
  cbn in H. injection H as <-. cbn [fst] in O2. apply drawSegment_drawn in E2.
  assert (G3 : grows d2 (mkD (region_map d2) (regions d2) (points d2) (segments d2) (polygons d2 ++ [l]))).
  { split; cbn; exists []; rewrite app_nil_r; auto. }
  pose proof (oa_grows _ _ O1) as G1. pose proof (oa_grows _ _ O2) as G2. split; [|split].
  - intros a b Hi. apply edges_nth in Hi. destruct Hi as [i [Ha [Hb|[Hi Hb]]]].
    + eapply drawn_mono; [eapply grows_trans; eassumption|]. eapply PD; eauto. assert ((i + 1 < length l)%nat) by (apply nth_error_Some; congruence). lia.
    + eapply drawn_mono; [exact G3|]. subst i. unfold get in Gp, Gq. rewrite Ha in Gp. rewrite Hb in Gq. injection Gp as <-. injection Gq as <-. exact E2.
  - eauto using grows_trans.
  - cbn. f_equal. destruct O1 as [_ [_ [_ [_ O1]]]], O2 as [_ [_ [_ [_ O2]]]]. congruence.
Qed.

Hypothesis exact : exact_libm lm.
Lemma circle_done : forall c r n m k d d' mine mine', (0 < n)%nat ->
  circle_loop ROps lm A c r (2 * PI / INR n) m (INR k * (2 * PI / INR n)) (circle_vertex c r n k) mine d = (d', Ok mine') ->
  (forall i, (k <= i < k + m)%nat -> drawn d' (circle_vertex c r n i) (circle_vertex c r n (S i))) /\
  mine' = mine ++ map (circle_vertex c r n) (seq (S k) m).
Proof.
  intros c r n m. destruct exact as [Es [Ec [Ep Et]]]. induction m as [|m IH]; intros k d d' mine mine' Hn H.
  - cbn in H. inversion H. split; [intros; lia|]. rewrite app_nil_r. auto.
  - cbn [circle_loop] in H. cbv zeta in H.
    assert (Ang : add ROps (INR k * (2 * PI / INR n)) (2 * PI / INR n) = INR (S k) * (2 * PI / INR n)) by
      (rewrite S_INR; change (INR k * (2 * PI / INR n) + 2 * PI / INR n = (INR k + 1) * (2 * PI / INR n)); ring).
    rewrite Ang in H.
    assert (V : mkV (add ROps (vx c) (mul ROps r (fcos ROps lm (INR (S k) * (2 * PI / INR n)))))
      (add ROps (vy c) (mul ROps r (fsin ROps lm (INR (S k) * (2 * PI / INR n))))) = circle_vertex c r n (S k)).
    { unfold circle_vertex. rewrite Es, Ec. replace (2 * PI * INR (S k) / INR n) with (INR (S k) * (2 * PI / INR n)) by (unfold Rdiv; ring). reflexivity. }
    rewrite V in H. unfold mbind at 1 in H.
    destruct (drawSegment ROps lm A (circle_vertex c r n k) (circle_vertex c r n (S k)) d) as [d1 [[]|s|s|s]] eqn:E; try discriminate.
    destruct (IH (S k) d1 d' _ _ Hn H) as [H1 H2]. split.
    + intros i Hi. destruct (Nat.eq_dec i k) as [->|Ne]; [|apply H1; lia].
      apply drawSegment_drawn in E. eapply drawn_mono; eauto. apply oa_grows.
      match type of H with ?f d1 = _ => assert (K : rel ROps A (@only_adds ROps A) f) by apply r_circle_loop end.
      specialize (K d1). rewrite H in K. exact K.
    + rewrite H2, <- app_assoc. reflexivity.
Qed.
Lemma circle_closed : forall c r n, (0 < n)%nat -> circle_vertex c r n n = circle_vertex c r n 0.
Proof.
  intros c r n Hn. unfold circle_vertex. assert (0 < INR n) by (apply lt_0_INR; auto).
  replace (2 * PI * INR n / INR n) with (2 * PI) by (field; lra). replace (2 * PI * INR 0 / INR n) with 0 by (change (INR 0) with 0; field; lra).
  rewrite cos_2PI, sin_2PI, cos_0, sin_0. auto.
Qed.
Lemma circle_all : forall c r n d d', drawCircle ROps lm A c r n d = (d', Ok tt) ->
  (forall i, (i < n)%nat -> drawn d' (circle_vertex c r n i) (circle_vertex c r n (S i))) /\ grows d d' /\
  polygons d' = polygons d ++ [map (circle_vertex c r n) (seq 1 n)].
Proof.
  intros c r n d d' H. destruct n as [|n0].
  { cbn in H. inversion H; subst. split; [intros; lia|]. split; [|auto]. split; cbn; exists []; rewrite app_nil_r; auto. }
  set (n := S n0) in *. assert (Hn : (0 < n)%nat) by (unfold n; lia). assert (0 < INR n) by (apply lt_0_INR; auto).
  unfold drawCircle in H. fold n in H. destruct exact as [Es [Ec [Ep Et]]]. rewrite Ep in H.
  cbn [n] in H. fold n in H. unfold mbind at 1, mlift at 1 in H.
  assert (D : div ROps (mul ROps (ofZ ROps 2) PI) (ofZ ROps (Z.of_nat n)) = Ok (2 * PI / INR n)).
  { cbn [div ROps ofZ mul]. rewrite <- INR_IZR_INZ. rewrite Rdivr_ok by lra. auto. }
  rewrite D in H. unfold mbind at 1 in H.
  assert (V0 : mkV (add ROps (vx c) r) (vy c) = circle_vertex c r n 0).
  { apply pt_ext; unfold circle_vertex; rewrite ?px_P, ?py_P; replace (2 * PI * INR 0 / INR n) with 0 by (change (INR 0) with 0; field; lra); rewrite ?cos_0, ?sin_0.
    - change (px c + r = px c + r * 1). ring.
    - change (py c = py c + r * 0). ring. }
  assert (Z0 : zero ROps = INR 0 * (2 * PI / INR n)) by (change (0 = 0 * (2 * PI / INR n)); ring).
  rewrite V0, Z0 in H.
  match type of H with context [circle_loop ?a ?b ?c' ?e ?f ?g ?h ?i ?j ?k d] =>
    assert (O1 : rel ROps A (@only_adds ROps A) (circle_loop a b c' e f g h i j k)) by apply r_circle_loop; specialize (O1 d);
    destruct (circle_loop a b c' e f g h i j k d) as [d1 [mine|s|s|s]] eqn:E; try discriminate end.
  apply circle_done in E; auto. destruct E as [E1 E2]. cbn in H. injection H as <-. cbn [fst] in O1.
  assert (G3 : grows d1 (mkD (region_map d1) (regions d1) (points d1) (segments d1) (polygons d1 ++ [mine]))).
  { split; cbn; exists []; rewrite app_nil_r; auto. }
  split; [|split].
  - intros i Hi. eapply drawn_mono; eauto. apply E1. lia.
  - eauto using grows_trans, oa_grows.
  - cbn [polygons]. rewrite E2. destruct O1 as [_ [_ [_ [_ O1]]]]. rewrite O1. auto.
Qed.
Lemma circle_edges : forall c r n (d : drawing), (forall i, (i < n)%nat -> drawn d (circle_vertex c r n i) (circle_vertex c r n (S i))) ->
  all_drawn d (edges (map (circle_vertex c r n) (seq 1 n))).
Proof.
  intros c r n d H a b Hi. apply edges_nth in Hi. destruct Hi as [i [Ha Hb]].
  assert (Li : (i < n)%nat) by (apply nth_error_Some || idtac; assert (K : (i < length (map (circle_vertex c r n) (seq 1 n)))%nat) by (apply nth_error_Some; congruence); rewrite map_length, seq_length in K; auto).
  assert (Nth : forall j, (j < n)%nat -> nth_error (map (circle_vertex c r n) (seq 1 n)) j = Some (circle_vertex c r n (S j))).
  { intros j Hj. rewrite nth_error_map. rewrite (nth_error_nth' (seq 1 n) 0%nat) by (rewrite seq_length; auto). rewrite seq_nth by auto. reflexivity. }
  rewrite Nth in Ha by auto. injection Ha as <-.
  destruct Hb as [Hb|[Hi Hb]].
  - assert (L2 : (i + 1 < n)%nat). { assert (K : (i + 1 < length (map (circle_vertex c r n) (seq 1 n)))%nat) by (apply nth_error_Some; congruence). rewrite map_length, seq_length in K. auto. }
    rewrite Nth in Hb by auto. injection Hb as <-. replace (S (i + 1)) with (S (S i)) by lia. apply H. lia.
  - rewrite map_length, seq_length in Hi. rewrite Nth in Hb by lia. injection Hb as <-. replace (S i) with n by lia.
    rewrite circle_closed by lia. apply H. lia.
Qed.

Lemma outline_done : forall c d d', is_outline c -> is_u32 (length (outline_vertices c)) -> exec ROps lm A peq c d = (d', Ok tt) ->
  all_drawn d' (outline_edges c) /\ all_drawn d' (edges (outline_vertices c)) /\ grows d d' /\ polygons d' = polygons d ++ [outline_vertices c].
Proof.
  intros c d d' Ho Hl H. destruct c; simpl in Ho; try contradiction; cbn [exec] in H; cbn [outline_edges outline_vertices] in *.
  - apply rect_done in H. tauto.
  - apply rect_done in H. tauto.
  - apply circle_all in H. destruct H as [H1 [H2 H3]]. split; [|split; [|auto]].
    + intros a b Hi. apply in_map_iff in Hi. destruct Hi as [k [Hk Hi]]. injection Hk as <- <-. apply in_seq in Hi. apply H1. lia.
    + apply circle_edges. auto.
  - apply poly_done in H; auto. tauto.
Qed.

(** ** every stored polygon is outlined by stored segments *)
Lemma outline_pushed : forall c d d', is_outline c -> exec ROps lm A peq c d = (d', Ok tt) ->
  grows d d' /\ polygons d' = polygons d ++ [outline_vertices c].
Proof.
  intros c d d' Ho H. destruct c; simpl in Ho; try contradiction; cbn [exec outline_vertices] in *.
  - apply rect_done in H. tauto.
  - apply rect_done in H. tauto.
  - apply circle_all in H. tauto.
  - cbn [exec outline_vertices] in *. unfold drawPolygon in H. cbv zeta in H.
    match type of H with context [polygon_loop ROps lm A l ?n 0] => pose proof (r_polygon_loop ROps lm A l n 0 d) as O1; unfold mbind at 1 in H;
      destruct (polygon_loop ROps lm A l n 0 d) as [d1 [[]|s|s|s]] eqn:E; try discriminate end.
    unfold mbind at 1, mlift at 1 in H. match type of H with context [get l ?n] => destruct (get l n) as [p|s|s|s] end; try discriminate.
    unfold mbind at 1, mlift at 1 in H. destruct (get l 0) as [q|s|s|s] eqn:Gq; try discriminate.
    unfold mbind at 1 in H. pose proof (r_drawSegment ROps lm A p q d1) as O2. destruct (drawSegment ROps lm A p q d1) as [d2 [[]|s|s|s]] eqn:E2; try discriminate.
    cbn in H. injection H as <-. cbn [fst] in O1, O2. split.
    + apply (grows_trans _ d1); [apply oa_grows; auto|]. apply (grows_trans _ d2); [apply oa_grows; auto|]. split; cbn; exists []; rewrite app_nil_r; auto.
    + cbn. f_equal. destruct O1 as [_ [_ [_ [_ O1]]]], O2 as [_ [_ [_ [_ O2]]]]. congruence.
Qed.
Lemma vadd_shift : forall p v : pt, vadd ROps p v = shift v p.
Proof. intros. reflexivity. Qed.
Lemma dist_shift : forall v p q, dist (shift v p) (shift v q) = dist p q.
Proof.
  intros. unfold dist. rewrite !shift_x, !shift_y. f_equal.
  replace (px p + px v - (px q + px v)) with (px p - px q) by ring. replace (py p + py v - (py q + py v)) with (py p - py q) by ring. auto.
Qed.
Lemma near_shift : forall v p q, near (shift v p) (shift v q) <-> near p q.
Proof. intros. unfold near. rewrite dist_shift. tauto. Qed.
Lemma translate_moved : forall v d, exec ROps lm A peq (Translate v) d = (moved v d, Ok tt).
Proof.
  intros v d. cbn [exec]. unfold translate, mbind, mget, mput, moved. do 2 f_equal.
Qed.
Lemma drawn_moved : forall v (d : drawing) a b, drawn d a b -> drawn (moved v d) (shift v a) (shift v b).
Proof.
  intros v d a b [s [p [q [H1 [H2 [H3 H4]]]]]]. exists s, (shift v p), (shift v q). cbn. rewrite !nth_error_map, H2, H3.
  rewrite !near_shift. auto.
Qed.
Lemma region_frame : forall p val d d' r, exec ROps lm A peq (DrawRegion p val) d = (d', r) ->
  points d' = points d /\ segments d' = segments d /\ polygons d' = polygons d.
Proof.
  intros p val d d' r H. cbn [exec] in H. unfold drawRegion, getRegionId, mbind, mget, mput, mret in H.
  destruct (find_prop A peq (region_map d) 0 val); cbn in H; inversion H; subst; cbn; auto.
Qed.
Lemma same_grows : forall d d' : drawing, points d' = points d -> segments d' = segments d -> grows d d'.
Proof. intros d d' H1 H2. split; exists []; rewrite app_nil_r; auto. Qed.

Lemma reached_outlined : forall d, reached ROps lm A peq d -> forall g, In g (polygons d) -> is_u32 (length g) -> all_drawn d (edges g).
Proof.
  induction 1 as [|d c d' r H IH E NU]; intros g Hg Hl; [destruct Hg|].
  assert (SAME : polygons d' = polygons d -> grows d d' -> all_drawn d' (edges g)).
  { intros Ep G. rewrite Ep in Hg. eapply all_drawn_mono; eauto. }
  assert (OUT : is_outline c -> all_drawn d' (edges g)).
  { intros Ho. pose proof (outline_fail ROps lm A peq c Ho d) as F. rewrite E in F.
    destruct r as [[]|s|s|s].
    - destruct (outline_pushed c d d' Ho E) as [G Ep]. rewrite Ep in Hg. apply in_app_or in Hg. destruct Hg as [Hg|[<-|[]]].
      + eapply all_drawn_mono; eauto.
      + apply (outline_done c d d' Ho Hl E).
    - apply SAME; [apply F|apply oa_grows; auto].
    - apply SAME; [apply F|apply oa_grows; auto].
    - apply SAME; [apply F|apply oa_grows; auto]. }
  destruct c; try (apply OUT; exact I).
  - apply region_frame in E. destruct E as [E1 [E2 E3]]. apply SAME; auto. apply same_grows; auto.
  - pose proof (r_push_point ROps A p d) as K. cbn [exec] in E. unfold drawPoint in E. rewrite E in K. apply SAME; [apply K|]. apply oa_grows, oap_oa. exact K.
  - pose proof (r_refine ROps lm A d) as K. cbn [exec] in E. rewrite E in K. apply SAME; [apply K|]. apply oa_grows, oap_oa. exact K.
  - rewrite translate_moved in E. injection E as <- _. cbn in Hg. apply in_map_iff in Hg. destruct Hg as [g0 [<- Hg]].
    intros a b Hi. rewrite edges_map in Hi. apply in_map_iff in Hi. destruct Hi as [[x y] [Hxy Hi]]. cbn in Hxy. injection Hxy as <- <-.
    apply drawn_moved. rewrite map_length in Hl. apply (IH g0); auto.
Qed.

(** ** C30: merged points *)
Definition keeps {X} (Q : drawing -> Prop) (c : M ROps A X) : Prop := forall d, Q d -> Q (fst (c d)).
Lemma k_bind : forall X Y Q (c : M ROps A X) (k : X -> M ROps A Y), keeps Q c -> (forall x, keeps Q (k x)) -> keeps Q (mbind ROps A c k).
Proof. intros X Y Q c k H1 H2 d Hd. unfold mbind. specialize (H1 d Hd). destruct (c d) as [d' [x|s|s|s]]; cbn in *; auto. apply H2; auto. Qed.
Lemma k_lift : forall X Q (r : res X), keeps Q (mlift ROps A r).
Proof. intros X Q r d Hd. exact Hd. Qed.
Lemma k_ret : forall X Q (x : X), keeps Q (mret ROps A x).
Proof. intros X Q r d Hd. exact Hd. Qed.

(** the invariant: points apart; with [m >= 2 tol9] also no segment with equal ends *)
Definition tidy (m : R) (d : drawing) : Prop :=
  separated d /\ (2 * tol9 <= m -> forall s, In s (segments d) -> fst s <> snd s).
Lemma sep_app1 : forall (l : list pt) p, (forall i j x y, nth_error l i = Some x -> nth_error l j = Some y -> i <> j -> ~ near x y) ->
  (forall q, In q l -> ~ near q p) -> (forall i j x y, nth_error (l ++ [p]) i = Some x -> nth_error (l ++ [p]) j = Some y -> i <> j -> ~ near x y).
Proof.
  intros l p H1 H2 i j x y Hi Hj Ne. apply nth_app_one in Hi. apply nth_app_one in Hj. destruct Hi as [Hi|[-> ->]], Hj as [Hj|[-> ->]].
  - eapply H1; eauto.
  - apply H2. eapply nth_error_In; eauto.
  - intros K. apply near_sym in K. revert K. apply H2. eapply nth_error_In; eauto.
  - congruence.
Qed.
Lemma sep_placed : forall (d : drawing) p1 p2 i1 i2 l1 l2, separated d -> ~ near p1 p2 -> placed ROps (points d) (points d) p1 i1 l1 ->
  placed ROps (points d) (points d ++ l1) p2 i2 l2 ->
  forall i j x y, nth_error (points d ++ l1 ++ l2) i = Some x -> nth_error (points d ++ l1 ++ l2) j = Some y -> i <> j -> ~ near x y.
Proof.
  intros d p1 p2 i1 i2 l1 l2 S N P1 P2.
  assert (A1 : forall i j x y, nth_error (points d ++ l1) i = Some x -> nth_error (points d ++ l1) j = Some y -> i <> j -> ~ near x y).
  { destruct P1 as [[-> _]|[-> [_ P1]]]; [rewrite app_nil_r; auto|]. apply sep_app1; auto. intros q Hq. apply not_near_iff. auto. }
  rewrite app_assoc. destruct P2 as [[-> _]|[-> [_ P2]]]; [rewrite app_nil_r; auto|]. apply sep_app1; auto.
  intros q Hq. apply in_app_or in Hq. destruct Hq as [Hq|Hq]; [apply not_near_iff; auto|].
  destruct P1 as [[-> _]|[-> _]]; [destruct Hq|]. destruct Hq as [<-|[]]. auto.
Qed.
Lemma tidy_segment : forall m p1 p2, tol9 <= m -> m <= dist p1 p2 -> keeps (tidy m) (drawSegment ROps lm A p1 p2).
Proof.
  intros m p1 p2 Hm Hd d [S1 S2]. destruct (drawSegment_R p1 p2 d) as [i1 [i2 [l1 [l2 [P1 [P2 E]]]]]]. cbv zeta in E. rewrite E. clear E.
  assert (N : ~ near p1 p2) by (unfold near; lra).
  pose proof (sep_placed d p1 p2 i1 i2 l1 l2 S1 N P1 P2) as S3.
  destruct (check_segments ROps lm (points d ++ l1 ++ l2) p1 p2 (i1, i2) (segments d)) as [[]|s|s|s]; cbn [fst]; (split; [exact S3|cbn]); auto.
  intros Hb s Hs. apply in_app_or in Hs. destruct Hs as [Hs|[<-|[]]]; auto. cbn. intros Eq. subst i2.
  destruct (placed_at1 _ _ _ _ l2 P1) as [q1 [N1 M1]]. destruct (placed_at2 _ _ _ _ _ P2) as [q2 [N2 M2]]. rewrite N1 in N2. injection N2 as <-.
  unfold near in *. pose proof (dist_tri p1 q1 p2) as T. rewrite (dist_sym p1 q1) in T. lra.
Qed.
Lemma tidy_polygon : forall m l, keeps (tidy m) (push_polygon ROps A l).
Proof. intros m l d [H1 H2]. split; cbn; auto. Qed.
Lemma tidy_polyloop : forall m l n a, tol9 <= m -> (forall x y, In (x, y) (edges l) -> m <= dist x y) -> keeps (tidy m) (polygon_loop ROps lm A l n a).
Proof.
  intros m l n. induction n as [|n IH]; intros a Hm He; cbn [polygon_loop]; [apply k_ret|].
  intros d Hd. unfold mbind at 1, mlift at 1. destruct (get l a) as [p|s|s|s] eqn:G1; auto.
  unfold mbind at 1, mlift at 1. destruct (get l (a + 1)) as [q|s|s|s] eqn:G2; auto.
  apply k_bind; auto. apply tidy_segment; auto. apply He.
  assert (N1 : nth_error l a = Some p) by (unfold get in G1; destruct (nth_error l a); congruence).
  assert (N2 : nth_error l (a + 1) = Some q) by (unfold get in G2; destruct (nth_error l (a + 1)); congruence).
  clear - N1 N2. destruct l as [|x l]; [destruct a; discriminate N1|]. unfold edges. replace (a + 1)%nat with (S a) in N2 by lia. cbn [nth_error] in N2.
  revert x a N1 N2. assert (G : forall (l : list pt) y x a, nth_error (x :: l) a = Some p -> nth_error l a = Some q -> In (p, q) (combine (x :: l) (l ++ [y]))).
  { intros l0. induction l0 as [|z l0 IH]; intros y x a N1 N2; [destruct a; discriminate N2|]. destruct a.
    - cbn in N1, N2. injection N1 as ->. injection N2 as ->. left. auto.
    - right. apply (IH y z a); auto. }
  intros x a N1 N2. eapply G; eauto.
Qed.
Lemma edges_next : forall (l : list pt) a p q, nth_error l a = Some p -> nth_error l (a + 1) = Some q -> In (p, q) (edges l).
Proof.
  intros l a p q N1 N2. destruct l as [|x l]; [destruct a; discriminate N1|]. unfold edges. replace (a + 1)%nat with (S a) in N2 by lia. cbn [nth_error] in N2.
  revert N1 N2. generalize x at 3. revert x a.
  induction l as [|z l IH]; intros x a y N1 N2; [destruct a; discriminate N2|]. destruct a.
  - cbn in N1, N2. injection N1 as ->. injection N2 as ->. left. auto.
  - right. apply (IH z a y); auto.
Qed.
Lemma edges_wrap : forall (l : list pt) p q, nth_error l (length l - 1) = Some p -> nth_error l 0 = Some q -> In (p, q) (edges l).
Proof.
  intros [|x l] p q H1 H2; [discriminate|]. cbn [nth_error] in H2. injection H2 as ->. unfold edges. cbn [length] in H1. replace (S (length l) - 1)%nat with (length l) in H1 by lia.
  assert (G : forall (l : list pt) x z, nth_error (x :: l) (length l) = Some p -> In (p, z) (combine (x :: l) (l ++ [z]))).
  { intros l0. induction l0 as [|y l0 IH]; intros x z' H; [cbn in *; injection H as ->; auto|]. right. apply (IH y z'). exact H. }
  apply G. exact H1.
Qed.
Lemma tidy_circle : forall m c r n k j mine angle p1, tol9 <= m -> (0 < n)%nat -> (k + j = n)%nat -> angle = INR k * (2 * PI / INR n) -> p1 = circle_vertex c r n k ->
  (forall i, (i < n)%nat -> m <= dist (circle_vertex c r n i) (circle_vertex c r n (S i))) ->
  keeps (tidy m) (circle_loop ROps lm A c r (2 * PI / INR n) j angle p1 mine).
Proof.
  intros m c r n k j. destruct exact as [Es [Ec [Ep Et]]]. revert k. induction j as [|j IH]; intros k mine angle p1 Hm Hn Hk -> -> He; cbn [circle_loop]; [apply k_ret|].
  cbv zeta.
  assert (Ang : add ROps (INR k * (2 * PI / INR n)) (2 * PI / INR n) = INR (S k) * (2 * PI / INR n)) by
    (rewrite S_INR; change (INR k * (2 * PI / INR n) + 2 * PI / INR n = (INR k + 1) * (2 * PI / INR n)); ring).
  rewrite Ang.
  assert (V : mkV (add ROps (vx c) (mul ROps r (fcos ROps lm (INR (S k) * (2 * PI / INR n)))))
    (add ROps (vy c) (mul ROps r (fsin ROps lm (INR (S k) * (2 * PI / INR n))))) = circle_vertex c r n (S k)).
  { unfold circle_vertex. rewrite Es, Ec. replace (2 * PI * INR (S k) / INR n) with (INR (S k) * (2 * PI / INR n)) by (unfold Rdiv; ring). reflexivity. }
  rewrite V. apply k_bind; [apply tidy_segment; auto; apply He; lia|]. intros _. apply (IH (S k)); auto. lia.
Qed.
Lemma tidy_exec : forall m c d d' r, tol9 <= m -> tidy m d -> exec ROps lm A peq c d = (d', r) -> ~ is_ub r ->
  match c with DrawPoint _ | AddRefiningPoints => False | DrawPolygon l => is_u32 (length l) | _ => True end ->
  (forall a b, In (a, b) (outline_edges c) -> m <= dist a b) -> tidy m d'.
Proof.
  intros m c d d' r Hm Ht E NU Hc He.
  assert (RECT : forall p q, (forall a b, In (a, b) (edges [p; P (px q) (py p); q; P (px p) (py q)]) -> m <= dist a b) -> keeps (tidy m) (drawRectangle ROps lm A p q)).
  { intros p q He'. unfold drawRectangle. change (mkV (vx q) (vy p)) with (P (px q) (py p)). change (mkV (vx p) (vy q)) with (P (px p) (py q)).
    repeat (apply k_bind; [apply tidy_segment; auto; apply He'; cbn; auto|intros _]). apply tidy_polygon. }
  destruct c; try contradiction; cbn [exec outline_edges] in *.
  - specialize (RECT _ _ He d Ht). rewrite E in RECT. exact RECT.
  - assert (K : keeps (tidy m) (drawRectangleWH ROps lm A p1 width height)) by (apply RECT; exact He). specialize (K d Ht). rewrite E in K. exact K.
  - destruct n_segments as [|n0]. { pose proof (tidy_polygon m [] d Ht) as K. cbn in E. inversion E; subst. exact K. }
    set (n := S n0) in *. assert (Hn : (0 < n)%nat) by (unfold n; lia). assert (0 < INR n) by (apply lt_0_INR; auto).
    assert (K : keeps (tidy m) (drawCircle ROps lm A p radius n)).
    { unfold drawCircle. unfold n at 1. fold n. destruct exact as [Es [Ec [Ep Et]]]. rewrite Ep.
      assert (D : div ROps (mul ROps (ofZ ROps 2) PI) (ofZ ROps (Z.of_nat n)) = Ok (2 * PI / INR n)).
      { cbn [div ROps ofZ mul]. rewrite <- INR_IZR_INZ. rewrite Rdivr_ok by lra. auto. }
      change (div ROps (mul ROps (ofZ ROps 2) PI) (ofZ ROps (Z.of_nat (S n0)))) with (div ROps (mul ROps (ofZ ROps 2) PI) (ofZ ROps (Z.of_nat n))).
      rewrite D. intros d0 Hd0. unfold mbind at 1, mlift at 1. revert d0 Hd0.
      match goal with |- forall d0, _ -> tidy m (fst (?f d0)) => change (keeps (tidy m) f) end.
      apply k_bind; [|intros mine; apply tidy_polygon].
      apply (tidy_circle m p radius n 0 n); auto.
      - change (0 = 0 * (2 * PI / INR n)). ring.
      - apply pt_ext; unfold circle_vertex; rewrite ?px_P, ?py_P; replace (2 * PI * INR 0 / INR n) with 0 by (change (INR 0) with 0; field; lra); rewrite ?cos_0, ?sin_0.
        + change (px p + radius = px p + radius * 1). ring.
        + change (py p = py p + radius * 0). ring.
      - intros i Hi. apply He. apply in_map_iff. exists i. split; auto. apply in_seq. lia. }
    specialize (K d Ht). fold n in E. rewrite E in K. exact K.
  - unfold drawPolygon in E. cbv zeta in E.
    match type of E with context [polygon_loop ROps lm A l ?n 0] => pose proof (tidy_polyloop m l n 0 Hm He d Ht) as K; unfold mbind at 1 in E;
      destruct (polygon_loop ROps lm A l n 0 d) as [d1 [[]|s|s|s]] eqn:E1; cbn [fst] in K; try (inversion E; subst; exact K) end.
    unfold mbind at 1, mlift at 1 in E. destruct (get l (u32_sub (u32 (length l)) 1)) as [p|s|s|s] eqn:G1; try (inversion E; subst; exact K).
    unfold mbind at 1, mlift at 1 in E. destruct (get l 0) as [q|s|s|s] eqn:G2; try (inversion E; subst; exact K).
    rewrite (u32_id _ Hc) in G1.
    assert (Hn : length l <> 0%nat) by (destruct l; [discriminate|discriminate]).
    rewrite (u32_sub_pos _ Hn Hc) in G1.
    assert (Hd : m <= dist p q).
    { apply He. apply edges_wrap; [unfold get in G1; destruct (nth_error l (length l - 1))|unfold get in G2; destruct (nth_error l 0)]; congruence. }
    pose proof (tidy_segment m p q Hm Hd d1 K) as K2. unfold mbind at 1 in E. destruct (drawSegment ROps lm A p q d1) as [d2 [[]|s|s|s]]; cbn [fst] in K2; try (inversion E; subst; exact K2).
  - apply region_frame in E. destruct E as [E1 [E2 E3]]. destruct Ht as [H1 H2]. split; unfold separated in *; rewrite ?E1, ?E2; auto.
  - pose proof (translate_moved v d) as T. cbn [exec] in T. rewrite T in E. injection E as <- _. destruct Ht as [H1 H2]. split; auto.
    intros i j x y Hi Hj Ne. cbn in Hi, Hj. rewrite nth_error_map in Hi, Hj.
    destruct (nth_error (points d) i) eqn:N1; [|discriminate]. destruct (nth_error (points d) j) eqn:N2; [|discriminate]. cbn in Hi, Hj. injection Hi as <-. injection Hj as <-.
    rewrite near_shift. eapply H1; eauto.
Qed.
Lemma merged_tidy : forall m d, tol9 <= m -> merged_history lm A peq m d -> tidy m d.
Proof.
  intros m d Hm. induction 1 as [|d c d' r H IH E NU Hc He].
  - split; [|intros _ s []]. intros i j p q Hi. destruct i; discriminate.
  - eapply tidy_exec; eauto.
Qed.
Lemma circle_angle : forall n k, add ROps (INR k * (2 * PI / INR n)) (2 * PI / INR n) = INR (S k) * (2 * PI / INR n).
Proof. intros. rewrite S_INR. change (INR k * (2 * PI / INR n) + 2 * PI / INR n = (INR k + 1) * (2 * PI / INR n)). ring. Qed.
Lemma circle_next : forall c r n k, mkV (add ROps (vx c) (mul ROps r (fcos ROps lm (INR k * (2 * PI / INR n)))))
    (add ROps (vy c) (mul ROps r (fsin ROps lm (INR k * (2 * PI / INR n))))) = circle_vertex c r n k.
Proof.
  intros. destruct exact as [Es [Ec [Ep Et]]]. unfold circle_vertex. rewrite Es, Ec.
  replace (2 * PI * INR k / INR n) with (INR k * (2 * PI / INR n)) by (unfold Rdiv; ring). reflexivity.
Qed.
Lemma circle_open : forall c r n (d : drawing), (0 < n)%nat -> drawCircle ROps lm A c r n d =
  mbind ROps A (circle_loop ROps lm A c r (2 * PI / INR n) n (INR 0 * (2 * PI / INR n)) (circle_vertex c r n 0) []) (push_polygon ROps A) d.
Proof.
  intros c r n d Hn. assert (0 < INR n) by (apply lt_0_INR; auto). destruct exact as [Es [Ec [Ep Et]]]. unfold drawCircle. destruct n as [|n0]; [lia|]. rewrite Ep.
  assert (D : div ROps (mul ROps (ofZ ROps 2) PI) (ofZ ROps (Z.of_nat (S n0))) = Ok (2 * PI / INR (S n0))).
  { cbn [div ROps ofZ mul]. rewrite <- INR_IZR_INZ. rewrite Rdivr_ok by lra. auto. }
  rewrite D.
  assert (V0 : mkV (add ROps (vx c) r) (vy c) = circle_vertex c r (S n0) 0).
  { apply pt_ext; unfold circle_vertex; rewrite ?px_P, ?py_P; replace (2 * PI * INR 0 / INR (S n0)) with 0 by (change (INR 0) with 0; field; lra); rewrite ?cos_0, ?sin_0.
    - change (px c + r = px c + r * 1). ring.
    - change (py c = py c + r * 0). ring. }
  assert (Z0 : zero ROps = INR 0 * (2 * PI / INR (S n0))) by (change (0 = 0 * (2 * PI / INR (S n0))); ring).
  rewrite V0, Z0. reflexivity.
Qed.
End DR.
