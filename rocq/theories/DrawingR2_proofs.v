(** Proofs about the drawing code in exact arithmetic, second part (C28, C32, C33, C57, C58). *)
From Coq Require Import String.
From Coq Require Import List Arith ZArith NArith Bool Lia.
From Coq Require Import Reals Lra.
From Verif Require Import Base AlgebraModel SolversSpec GeometryModel GeometrySpec Geometry_proofs Circle_proofs Polygon_proofs Segment_proofs.
From Verif Require Import DrawingModel DrawingSpec Drawing_proofs DrawingR_proofs.
Import ListNotations.
Local Open Scope R_scope.

Section DR2.
Variable lm : libm ROps.
Variable A : Type.
Variable peq : A -> A -> bool.
Notation drawing := (drawing ROps A).
Hypothesis exact : exact_libm lm.

(** ** C28 *)
Lemma get_some : forall X (l : list X) i x, nth_error l i = Some x -> get l i = Ok x.
Proof. intros. unfold get. rewrite H. auto. Qed.
Lemma check_throws : forall (pts : list pt) p1 p2 new segs s u v,
  (forall t, In t segs -> (fst t < length pts /\ snd t < length pts)%nat) -> (forall t, In t segs -> ~ same_ends t new) ->
  In s segs -> connected s new = false -> nth_error pts (fst s) = Some u -> nth_error pts (snd s) = Some v ->
  pointInSegmentBB ROps p1 u v || pointInSegmentBB ROps p2 u v = true -> segmentsIntersect ROps (tiny ROps lm) p1 p2 u v = true ->
  is_throw (check_segments ROps lm pts p1 p2 new segs).
Proof.
  induction segs as [|t segs IH]; intros s u v Hl Hs Hi Hc Hu Hv Hb Hx; [destruct Hi|].
  cbn [check_segments]. destruct (same_segment t new) eqn:E. { apply same_segment_iff in E. exfalso. apply (Hs t); [left; auto|auto]. }
  destruct Hi as [->|Hi].
  - rewrite Hc, (get_some _ _ _ _ Hu), (get_some _ _ _ _ Hv). cbn [bind]. rewrite Hb. cbn [negb]. rewrite Hx. eexists; reflexivity.
  - assert (R : is_throw (check_segments ROps lm pts p1 p2 new segs)).
    { eapply (IH s u v); eauto; intros; [apply Hl|apply Hs]; right; auto. }
    destruct (connected t new); auto. destruct (Hl t (or_introl eq_refl)) as [L1 L2].
    destruct (nth_error pts (fst t)) eqn:N1; [|apply nth_error_None in N1; lia]. destruct (nth_error pts (snd t)) eqn:N2; [|apply nth_error_None in N2; lia].
    rewrite (get_some _ _ _ _ N1), (get_some _ _ _ _ N2). cbn [bind]. destruct (negb _); auto. match goal with |- is_throw (if ?b then _ else _) => destruct b end; auto. eexists; reflexivity.
Qed.
Lemma crossing_throws : forall (d : drawing) a b s u v, well_formed d -> In s (segments d) ->
  nth_error (points d) (fst s) = Some u -> nth_error (points d) (snd s) = Some v ->
  cross_properly a b u v -> e100 <= Rabs (turn a b u) -> e100 <= Rabs (turn a b v) -> (in_box a u v \/ in_box b u v) ->
  ~ near u a -> ~ near u b -> ~ near v a -> ~ near v b -> ~ drawn d a b ->
  is_throw (snd (drawSegment ROps lm A a b d)).
Proof.
  intros d a b s u v [W1 [W2 W3]] Hs Hu Hv Hx T1 T2 Hb N1 N2 N3 N4 Nd.
  destruct (drawSegment_R lm A a b d) as [i1 [i2 [l1 [l2 [P1 [P2 E]]]]]]. cbv zeta in E.
  destruct (placed_at1 _ _ _ _ l2 P1) as [q1 [Q1 M1]]. destruct (placed_at2 _ _ _ _ _ P2) as [q2 [Q2 M2]].
  assert (Hu' : nth_error (points d ++ l1 ++ l2) (fst s) = Some u) by (apply nth_grow; auto).
  assert (Hv' : nth_error (points d ++ l1 ++ l2) (snd s) = Some v) by (apply nth_grow; auto).
  destruct exact as [_ [_ [_ Et]]].
  assert (TH : is_throw (check_segments ROps lm (points d ++ l1 ++ l2) a b (i1, i2) (segments d))).
  { apply check_throws with s u v; auto.
    - intros t Ht. destruct (W1 t Ht). rewrite app_length. lia.
    - intros t Ht Se. apply Nd. destruct (W1 t Ht) as [L1 L2].
      assert (K : forall i q, (i < length (points d))%nat -> nth_error (points d ++ l1 ++ l2) i = Some q -> nth_error (points d) i = Some q) by (intros i q Li; rewrite nth_error_app1; auto).
      destruct Se as [[S1 S2]|[S1 S2]]; cbn in S1, S2; subst.
      + exists t, q1, q2. repeat (split; auto).
      + exists t, q2, q1. repeat (split; auto).
    - unfold connected. cbn [fst snd]. apply not_true_iff_false. rewrite !orb_true_iff, !Nat.eqb_eq. intros [[[K|K]|K]|K]; rewrite K in *.
      + rewrite Q1 in Hu'. injection Hu' as ->. auto.
      + rewrite Q2 in Hu'. injection Hu' as ->. auto.
      + rewrite Q1 in Hv'. injection Hv' as ->. auto.
      + rewrite Q2 in Hv'. injection Hv' as ->. auto.
    - apply orb_true_iff. rewrite !bb_R. exact Hb.
    - rewrite Et. apply proper_detected; auto. }
  rewrite E. destruct TH as [m TH]. rewrite TH. eexists; reflexivity.
Qed.
Lemma polygon_first : forall a b rest (d : drawing), is_u32 (length (a :: b :: rest)) -> is_throw (snd (drawSegment ROps lm A a b d)) ->
  is_throw (snd (exec ROps lm A peq (DrawPolygon (a :: b :: rest)) d)).
Proof.
  intros a b rest d Hl [m H]. cbn [exec]. unfold drawPolygon. cbv zeta. rewrite (u32_id _ Hl).
  assert (Hn : length (a :: b :: rest) <> 0%nat) by (cbn; lia). rewrite (u32_sub_pos _ Hn Hl). cbn [length]. replace (S (S (length rest)) - 1)%nat with (S (length rest)) by lia.
  cbn [polygon_loop]. unfold mbind, mlift, get. cbn [nth_error Nat.add].
  destruct (drawSegment ROps lm A a b d) as [d1 r]. cbn [snd] in H. subst r. eexists; reflexivity.
Qed.

(** where an exception comes from *)
Definition blames (Q : pt -> pt -> Prop) {X} (c : M ROps A X) : Prop := forall d d' m, c d = (d', Throw m) ->
  exists a b s u v, Q a b /\ In s (segments d') /\ nth_error (points d') (fst s) = Some u /\ nth_error (points d') (snd s) = Some v /\
    segmentsIntersect ROps e100 a b u v = true.
Lemma b_bind : forall Q X Y (c : M ROps A X) (k : X -> M ROps A Y), blames Q c -> (forall x, blames Q (k x)) -> blames Q (mbind ROps A c k).
Proof.
  intros Q X Y c k H1 H2 d d' m E. unfold mbind in E. destruct (c d) as [d1 [x|s|s|s]] eqn:Ec; try discriminate.
  - eapply H2; eauto.
  - inversion E; subst. eapply H1; eauto.
Qed.
Lemma b_lift : forall Q X (r : res X), ~ is_throw r -> blames Q (mlift ROps A r).
Proof. intros Q X r H d d' m E. unfold mlift in E. inversion E; subst. exfalso. apply H. eexists; eauto. Qed.
Lemma b_ret : forall Q X (x : X), blames Q (mret ROps A x).
Proof. intros Q X x d d' m E. discriminate. Qed.
Lemma b_push : forall Q l, blames Q (push_polygon ROps A l).
Proof. intros Q l d d' m E. discriminate. Qed.
Lemma check_blame : forall (pts : list pt) p1 p2 new segs m, check_segments ROps lm pts p1 p2 new segs = Throw m ->
  exists s u v, In s segs /\ nth_error pts (fst s) = Some u /\ nth_error pts (snd s) = Some v /\ segmentsIntersect ROps (tiny ROps lm) p1 p2 u v = true.
Proof.
  induction segs as [|t segs IH]; intros m H; cbn [check_segments] in H; [discriminate|].
  assert (G : check_segments ROps lm pts p1 p2 new segs = Throw m -> exists s u v, In s (t :: segs) /\ nth_error pts (fst s) = Some u /\ nth_error pts (snd s) = Some v /\ segmentsIntersect ROps (tiny ROps lm) p1 p2 u v = true).
  { intros K. destruct (IH m K) as [s [u [v [H1 H2]]]]. exists s, u, v. split; [right; auto|auto]. }
  destruct (same_segment t new); [discriminate|]. destruct (connected t new); auto.
  unfold get in H. destruct (nth_error pts (fst t)) as [u|] eqn:N1; [|discriminate]. destruct (nth_error pts (snd t)) as [v|] eqn:N2; [|discriminate]. cbn [bind] in H.
  destruct (negb _); auto. destruct (segmentsIntersect ROps (tiny ROps lm) p1 p2 u v) eqn:E; auto.
  exists t, u, v. split; [left; auto|auto].
Qed.
Lemma b_segment : forall (Q : pt -> pt -> Prop) a b, Q a b -> blames Q (drawSegment ROps lm A a b).
Proof.
  intros Q a b HQ d d' m H. destruct (drawSegment_R lm A a b d) as [i1 [i2 [l1 [l2 [P1 [P2 E]]]]]]. cbv zeta in E. rewrite E in H. clear E.
  destruct exact as [_ [_ [_ Et]]].
  destruct (check_segments ROps lm (points d ++ l1 ++ l2) a b (i1, i2) (segments d)) as [[]|x|x|x] eqn:C; try discriminate.
  inversion H; subst. apply check_blame in C. destruct C as [s [u [v [H1 [H2 [H3 H4]]]]]]. exists a, b, s, u, v. rewrite Et in H4. cbn. auto 7.
Qed.
Lemma get_nothrow : forall X (l : list X) i, ~ is_throw (get l i).
Proof. intros X l i [m E]. unfold get in E. destruct (nth_error l i); discriminate. Qed.
Lemma b_polyloop : forall l n a, blames (fun x y => In (x, y) (edges l)) (polygon_loop ROps lm A l n a).
Proof.
  intros l n. induction n as [|n IH]; intros a; cbn [polygon_loop]; [apply b_ret|].
  intros d d' m E. unfold mbind at 1, mlift at 1 in E. destruct (get l a) as [p|s|s|s] eqn:G1; try discriminate; [|exfalso; eapply get_nothrow; eexists; eauto].
  unfold mbind at 1, mlift at 1 in E. destruct (get l (a + 1)) as [q|s|s|s] eqn:G2; try discriminate; [|exfalso; eapply get_nothrow; eexists; eauto].
  revert E. apply b_bind; [apply b_segment|intros _; apply IH].
  assert (N1 : nth_error l a = Some p) by (unfold get in G1; destruct (nth_error l a); congruence).
  assert (N2 : nth_error l (a + 1) = Some q) by (unfold get in G2; destruct (nth_error l (a + 1)); congruence).
  eapply edges_next; eauto.
Qed.
Lemma b_circle : forall c r n k j mine angle p1, (0 < n)%nat -> (k + j = n)%nat -> angle = INR k * (2 * PI / INR n) -> p1 = circle_vertex c r n k ->
  blames (fun x y => exists i, (i < n)%nat /\ x = circle_vertex c r n i /\ y = circle_vertex c r n (S i)) (circle_loop ROps lm A c r (2 * PI / INR n) j angle p1 mine).
Proof.
  intros c r n k j. revert k. induction j as [|j IH]; intros k mine angle p1 Hn Hk -> -> ; cbn [circle_loop]; [apply b_ret|].
  cbv zeta. rewrite (circle_angle n k), (circle_next lm exact c r n (S k)).
  apply b_bind; [apply b_segment; exists k; split; [lia|auto]|]. intros _. apply (IH (S k)); auto. lia.
Qed.
Lemma outline_blames : forall c, is_outline c -> match c with DrawPolygon l => is_u32 (length l) | _ => True end ->
  blames (fun a b => In (a, b) (outline_edges c)) (exec ROps lm A peq c).
Proof.
  intros c Ho Hl.
  assert (RECT : forall p q (Q : pt -> pt -> Prop), (forall a b, In (a, b) (edges [p; P (px q) (py p); q; P (px p) (py q)]) -> Q a b) -> blames Q (drawRectangle ROps lm A p q)).
  { intros p q Q He'. unfold drawRectangle. change (mkV (vx q) (vy p)) with (P (px q) (py p)). change (mkV (vx p) (vy q)) with (P (px p) (py q)).
    repeat (apply b_bind; [apply b_segment; apply He'; cbn; auto|intros _]). apply b_push. }
  destruct c; simpl in Ho; try contradiction; cbn [exec outline_edges].
  - apply RECT; auto.
  - apply RECT; auto.
  - destruct n_segments as [|n0]; [apply b_push|]. set (n := S n0). assert (Hn : (0 < n)%nat) by (unfold n; lia).
    intros d d' m E. rewrite (circle_open lm A exact) in E by auto. revert E. apply b_bind; [|intros; apply b_push].
    intros d1 d2 m1 E. destruct (b_circle p radius n 0 n [] _ _ Hn eq_refl eq_refl eq_refl d1 d2 m1 E) as [a [b [s [u [v [[i [Hi [-> ->]]] K]]]]]].
    exists (circle_vertex p radius n i), (circle_vertex p radius n (S i)), s, u, v. split; auto. apply in_map_iff. exists i. split; auto. apply in_seq. lia.
  - unfold drawPolygon. cbv zeta. destruct l as [|x l0].
    { intros d d' m E. pose proof (empty_polygon_ub ROps lm A [] d eq_refl) as [y U]. unfold drawPolygon in U. cbv zeta in U. rewrite E in U. discriminate. }
    set (l := x :: l0) in *. assert (Hn : length l <> 0%nat) by discriminate.
    rewrite (u32_id _ Hl), (u32_sub_pos _ Hn Hl). apply b_bind; [apply b_polyloop|intros _].
    intros d d' m E. unfold mbind at 1, mlift at 1 in E. destruct (get l (length l - 1)) as [p|s|s|s] eqn:G1; try discriminate; [|exfalso; eapply get_nothrow; eexists; eauto].
    unfold mbind at 1, mlift at 1 in E. destruct (get l 0) as [q|s|s|s] eqn:G2; try discriminate.
    revert E. apply b_bind; [apply b_segment|intros; apply b_push].
    apply edges_wrap; [unfold get in G1; destruct (nth_error l (length l - 1))|unfold get in G2; destruct (nth_error l 0)]; congruence.
Qed.

(** ** C32 *)
Lemma shift_back : forall v p, shift (P (- px v) (- py v)) (shift v p) = p.
Proof. intros. apply pt_ext; rewrite !shift_x || rewrite !shift_y; rewrite ?shift_x, ?shift_y, ?px_P, ?py_P; ring. Qed.
Lemma moved_back : forall v (d : drawing), moved (P (- px v) (- py v)) (moved v d) = d.
Proof.
  intros v [rm rg ps sg pl]. unfold moved; cbn. f_equal.
  - rewrite map_map. rewrite <- (map_id rg) at 2. apply map_ext. intros [p i]. cbn. rewrite shift_back. auto.
  - rewrite map_map. rewrite <- (map_id ps) at 2. apply map_ext. intros p. apply shift_back.
  - rewrite map_map. rewrite <- (map_id pl) at 2. apply map_ext. intros l. rewrite map_map. rewrite <- (map_id l) at 2. apply map_ext. intros p. apply shift_back.
Qed.
Lemma turn_shift : forall v a b c, turn (shift v a) (shift v b) (shift v c) = turn a b c.
Proof. intros. unfold turn. rewrite !shift_x, !shift_y. ring. Qed.
Lemma psd_shift : forall v p a b, pointSegmentDistance ROps (shift v p) (shift v a) (shift v b) = pointSegmentDistance ROps p a b.
Proof.
  intros v p a b. unfold pointSegmentDistance.
  assert (E0 : forall x y : pt, vminus ROps (shift v x) (shift v y) = vminus ROps x y).
  { intros x y. apply pt_ext.
    - change (px x + px v - (px y + px v) = px x - px y). ring.
    - change (py x + py v - (py y + py v) = py x - py y). ring. }
  assert (E1 : distanceSquared ROps (shift v a) (shift v b) = distanceSquared ROps a b).
  { change ((px a + px v - (px b + px v)) * (px a + px v - (px b + px v)) + (py a + py v - (py b + py v)) * (py a + py v - (py b + py v)) =
      (px a - px b) * (px a - px b) + (py a - py b) * (py a - py b)). ring. }
  rewrite !E0, E1. destruct (div ROps _ _) as [t|s|s|s]; cbn [bind]; auto.
  destruct (ltb ROps t (zero ROps)); [rewrite !distance_R, dist_shift; auto|]. destruct (gtb ROps t (one ROps)); [rewrite !distance_R, dist_shift; auto|].
  rewrite !distance_R. f_equal. rewrite <- (dist_shift v p). f_equal. apply pt_ext.
  - change (px a + px v + (px b - px a) * t = px a + (px b - px a) * t + px v). ring.
  - change (py a + py v + (py b - py a) * t = py a + (py b - py a) * t + py v). ring.
Qed.
Lemma get_map : forall X Y (f : X -> Y) l i, get (map f l) i = (x <- get l i ;; Ok (f x)).
Proof. intros. unfold get. rewrite nth_error_map. destruct (nth_error l i); auto. Qed.
Lemma epsilon_shift : forall v (d : drawing), getCurrentEpsilon ROps A (moved v d) = getCurrentEpsilon ROps A d.
Proof.
  intros v d. unfold getCurrentEpsilon. cbn [moved points segments].
  assert (IN : forall pts i p segs m, eps_inner ROps (map (shift v) pts) i (shift v p) segs m = eps_inner ROps pts i p segs m).
  { intros pts i p. induction segs as [|s segs IH]; intros m; cbn [eps_inner]; auto. destruct (_ || _); auto.
    rewrite !get_map. destruct (get pts (fst s)); cbn [bind]; auto. destruct (get pts (snd s)); cbn [bind]; auto. rewrite psd_shift.
    destruct (pointSegmentDistance ROps p a a0); cbn [bind]; auto. }
  assert (OUT : forall pts segs l i m, eps_outer ROps (map (shift v) pts) segs (map (shift v) l) i m = eps_outer ROps pts segs l i m); [|apply OUT].
  intros pts segs. induction l as [|p l IH]; intros i m; cbn [eps_outer map]; auto. rewrite IN. destruct (eps_inner ROps pts i p segs m); cbn [bind]; auto.
Qed.
Variable pdef : A.
Lemma polyeq_shift : forall v a b, poly_eqb ROps (map (shift v) a) (map (shift v) b) = poly_eqb ROps a b.
Proof.
  intros v a b. unfold poly_eqb. rewrite !map_length. destruct (negb _); auto. revert b.
  induction a as [|x a IH]; intros [|y b]; cbn [map poly_eqb_loop]; auto. unfold vec_neqb. rewrite !vec_eqb_R, dist_shift. cbn [bind]. destruct (negb _); auto.
Qed.
Lemma existsb_map' : forall X Y (f : X -> Y) g l, existsb g (map f l) = existsb (fun x => g (f x)) l.
Proof. induction l; cbn; auto. rewrite IHl. auto. Qed.
Lemma filter_map' : forall X Y (f : X -> Y) g l, filter g (map f l) = map f (filter (fun x => g (f x)) l).
Proof. induction l; cbn; auto. rewrite IHl. destruct (g (f a)); auto. Qed.
Lemma cpoly_shift : forall v p g, poly_contains_poly ROps (map (shift v) p) (map (shift v) g) = poly_contains_poly ROps p g.
Proof. intros v p g. unfold poly_contains_poly. induction g; cbn; auto. rewrite IHg, contains_shift. auto. Qed.
Lemma exists_shift : forall v (l : list (list pt)) q, existsb (fun g => poly_contains ROps g (shift v q)) (map (map (shift v)) l) = existsb (fun g => poly_contains ROps g q) l.
Proof. intros v l q. induction l as [|g l IH]; cbn [map existsb]; auto. rewrite IH, contains_shift. auto. Qed.
Lemma prop_shift : forall v (d : drawing) p, getPolygonProp ROps A pdef (moved v d) (map (shift v) p) = getPolygonProp ROps A pdef d p.
Proof.
  intros v d p. unfold getPolygonProp. cbn [moved polygons regions region_map].
  assert (HP : has_polygon ROps (map (map (shift v)) (polygons d)) (map (shift v) p) = has_polygon ROps (polygons d) p).
  { induction (polygons d) as [|q l IH]; cbn [map has_polygon]; auto. rewrite polyeq_shift. destruct (poly_eqb ROps q p) as [[]|s|s|s]; cbn [bind]; auto. }
  rewrite HP. destruct (has_polygon ROps (polygons d) p) as [[]|s|s|s]; cbn [bind negb]; auto.
  rewrite !filter_map'. 
  assert (F1 : filter (fun x => poly_contains ROps (map (shift v) p) (fst (shift v (fst x), snd x))) (regions d) = filter (fun r => poly_contains ROps p (fst r)) (regions d)).
  { apply filter_ext. intros r. cbn. apply contains_shift. }
  rewrite F1.
  assert (F2 : filter (fun x => poly_contains_poly ROps (map (shift v) p) (map (shift v) x)) (polygons d) = filter (fun g => poly_contains_poly ROps p g) (polygons d)).
  { apply filter_ext. intros r. apply cpoly_shift. }
  rewrite F2. set (inside := filter _ (regions d)). set (inner := filter _ (polygons d)).
  assert (FF : forall l, first_free ROps A pdef (region_map d) (map (map (shift v)) inner) (map (fun r => (shift v (fst r), snd r)) l) = first_free ROps A pdef (region_map d) inner l).
  { induction l as [|r l IH]; cbn [map first_free]; auto. cbn [fst snd]. rewrite exists_shift, IH. auto. }
  destruct inside as [|r [|r2 l]]; auto. apply (FF (r :: r2 :: l)).
Qed.

(** ** C33 *)
Lemma neqb_R : forall x y : pt, exists b, vec_neqb ROps x y = Ok b.
Proof. intros. unfold vec_neqb. rewrite vec_eqb_R. cbn [bind]. eauto. Qed.
Lemma polyeq_R : forall a b : list pt, exists r, poly_eqb ROps a b = Ok r.
Proof.
  intros a b. unfold poly_eqb. destruct (negb _); [eauto|]. revert b. induction a as [|x a IH]; intros [|y b]; cbn [poly_eqb_loop]; eauto.
  destruct (neqb_R x y) as [c Hc]. rewrite Hc. cbn [bind]. destruct c; eauto.
Qed.
Lemma polyeq_self : forall a : list pt, poly_eqb ROps a a = Ok true.
Proof.
  intros a. unfold poly_eqb. rewrite Nat.eqb_refl. cbn [negb]. induction a as [|x a IH]; cbn [poly_eqb_loop]; auto.
  unfold vec_neqb. rewrite vec_eqb_R, dist_self. cbn [bind].
  replace (Rltb 0 eps9R) with true; cbn; auto. symmetry. apply Rltb_true, eps9R_pos.
Qed.
Lemma has_in : forall l (p : list pt), In p l -> has_polygon ROps l p = Ok true.
Proof.
  induction l as [|q l IH]; intros p [].
  - subst q. cbn [has_polygon]. rewrite polyeq_self. auto.
  - cbn [has_polygon]. destruct (polyeq_R q p) as [b ->]. cbn [bind]. destruct b; auto.
Qed.
Lemma has_not : forall l (p : list pt), (forall q, In q l -> poly_eqb ROps q p = Ok false) -> has_polygon ROps l p = Ok false.
Proof. induction l as [|q l IH]; intros p H; cbn [has_polygon]; auto. rewrite (H q) by (left; auto). cbn [bind]. apply IH. intros; apply H; right; auto. Qed.
Lemma vertex_in : forall (l : list pt) p, In p l -> poly_contains ROps l p = true.
Proof.
  intros l p H. apply contains_boundary. destruct l as [|a t]; [destruct H|].
  apply In_nth_error in H. destruct H as [i H].
  destruct (Nat.eq_dec i (length t)) as [->|Ne].
  - exists p, a. split; [apply edges_wrap; [cbn [length]; replace (S (length t) - 1)%nat with (length t) by lia; auto|auto]|apply on_seg_end1].
  - assert (i < length (a :: t))%nat by (apply nth_error_Some; congruence). cbn [length] in *.
    destruct (nth_error (a :: t) (i + 1)) as [q|] eqn:N; [|apply nth_error_None in N; cbn [length] in N; lia].
    exists p, q. split; [eapply edges_next; eauto|apply on_seg_end1].
Qed.
Lemma contains_self : forall l : list pt, poly_contains_poly ROps l l = true.
Proof. intros l. unfold poly_contains_poly. apply forallb_forall. intros p. apply vertex_in. Qed.
Lemma first_free_all : forall (rm : list A) (inner : list (list pt)) p l, In p inner -> (forall r, In r l -> poly_contains ROps p (fst r) = true) ->
  first_free ROps A pdef rm inner l = Ok pdef.
Proof.
  induction l as [|r l IH]; intros Hi H; cbn [first_free]; auto.
  replace (existsb (fun g => poly_contains ROps g (fst r)) inner) with true.
  - apply IH; auto. intros; apply H; right; auto.
  - symmetry. apply existsb_exists. exists p. split; auto. apply H; left; auto.
Qed.
Lemma prop_cases : forall (d : drawing) p, well_formed d -> In p (polygons d) ->
  match seeds_in d p with
  | [] => is_throw (getPolygonProp ROps A pdef d p)
  | [r] => exists v, nth_error (region_map d) (snd r) = Some v /\ getPolygonProp ROps A pdef d p = Ok v
  | _ => getPolygonProp ROps A pdef d p = Ok pdef
  end.
Proof. clear peq.
  intros d p [_ [_ W]] Hp. unfold getPolygonProp. rewrite (has_in _ _ Hp). cbn [bind negb]. unfold seeds_in.
  assert (K : forall r, In r (filter (fun r => poly_contains ROps p (fst r)) (regions d)) -> (snd r < length (region_map d))%nat /\ poly_contains ROps p (fst r) = true).
  { intros r Hr. apply filter_In in Hr. split; [apply W|]; tauto. }
  destruct (filter (fun r => poly_contains ROps p (fst r)) (regions d)) as [|r [|r2 l]].
  - eexists; reflexivity.
  - destruct (K r (or_introl eq_refl)) as [K1 _]. destruct (nth_error (region_map d) (snd r)) as [v|] eqn:N; [|apply nth_error_None in N; lia].
    exists v. split; auto. apply get_some; auto.
  - apply first_free_all with p; [|intros r' Hr; apply K; auto]. apply filter_In. split; auto. apply contains_self.
Qed.

(** ** C57: getCurrentEpsilon *)
Lemma psd_spec : forall p a b : pt, a <> b -> exists m, pointSegmentDistance ROps p a b = Ok m /\ segment_distance p a b m.
Proof.
  intros p a b H. destruct (psd_R p a b H) as [t [m [Ht [E [Em Hmin]]]]]. exists m. split; auto. split.
  - exists (along a b t). split; [exists t; auto|auto].
  - intros q [s [Hs ->]]. auto.
Qed.
Lemma segdist_unique : forall p a b x y, segment_distance p a b x -> segment_distance p a b y -> x = y.
Proof. intros p a b x y [[q [Q1 Q2]] H1] [[q' [Q3 Q4]] H2]. specialize (H1 q' Q3). specialize (H2 q Q1). lra. Qed.
(** pairs seen: point number i at p against the segments in a list *)
Definition pair_in (pts : list pt) (i : nat) (p : pt) (segs : list (nat * nat)) (a b : pt) : Prop :=
  exists s, In s segs /\ nth_error pts (fst s) = Some a /\ nth_error pts (snd s) = Some b /\ fst s <> i /\ snd s <> i.
Lemma eps_inner_R : forall (pts : list pt) i p segs (m : R),
  (forall s, In s segs -> exists a b, nth_error pts (fst s) = Some a /\ nth_error pts (snd s) = Some b /\ a <> b) ->
  exists m' : R, eps_inner ROps pts i p segs m = Ok m' /\ m' <= m /\
    (forall a b x, pair_in pts i p segs a b -> segment_distance p a b x -> m' <= x) /\
    (m' = m \/ exists a b, pair_in pts i p segs a b /\ segment_distance p a b m').
Proof. clear peq pdef.
  intros pts i p. induction segs as [|s segs IH]; intros m H; cbn [eps_inner].
  - exists m. split; auto. split; [lra|]. split; auto. intros a b x [s [[] _]].
  - assert (H' : forall s, In s segs -> exists a b, nth_error pts (fst s) = Some a /\ nth_error pts (snd s) = Some b /\ a <> b) by (intros; apply H; right; auto).
    destruct (Nat.eqb (fst s) i || Nat.eqb (snd s) i) eqn:E.
    + destruct (IH m H') as [m' [E1 [L [M1 M2]]]]. exists m'. split; auto. split; auto. split.
      * intros a b x [t [[->|Ht] K]] Hx; [|eapply M1; eauto; exists t; auto]. exfalso. apply orb_true_iff in E. rewrite !Nat.eqb_eq in E. tauto.
      * destruct M2 as [M2|[a [b [[t [T1 T2]] M2]]]]; auto. right. exists a, b. split; auto. exists t. split; [right; auto|auto].
    + destruct (H s (or_introl eq_refl)) as [a [b [Ha [Hb Hab]]]]. rewrite (get_some _ _ _ _ Ha), (get_some _ _ _ _ Hb). cbn [bind].
      destruct (psd_spec p a b Hab) as [x [E1 Hx]]. rewrite E1. cbn [bind].
      apply orb_false_iff in E. rewrite !Nat.eqb_neq in E. destruct E as [Ea Eb].
      assert (PI : pair_in pts i p (s :: segs) a b) by (exists s; repeat (split; auto); left; auto).
      assert (PS : forall a b, pair_in pts i p segs a b -> pair_in pts i p (s :: segs) a b) by (intros a0 b0 [t [T1 T2]]; exists t; split; [right; auto|auto]).
      assert (PC : forall a' b', pair_in pts i p (s :: segs) a' b' -> (a' = a /\ b' = b) \/ pair_in pts i p segs a' b').
      { intros a' b' [t [[<-|Ht] [K1 [K2 K3]]]]; [left; split; congruence|right; exists t; auto]. }
      change (ltb ROps x m) with (Rltb x m). destruct (Rltb x m) eqn:Lx.
      * apply Rltb_true in Lx. destruct (IH x H') as [m' [E2 [L [M1 M2]]]]. exists m'. split; auto. split; [lra|]. split.
        -- intros a' b' y Hp Hy. destruct (PC a' b' Hp) as [[-> ->]|Hp']; [|eapply M1; eauto]. rewrite <- (segdist_unique p a b x y Hx Hy). auto.
        -- right. destruct M2 as [->|[a' [b' [K1 K2]]]]; [exists a, b; auto|exists a', b'; auto].
      * apply Rltb_false in Lx. destruct (IH m H') as [m' [E2 [L [M1 M2]]]]. exists m'. split; auto. split; [lra|]. split.
        -- intros a' b' y Hp Hy. destruct (PC a' b' Hp) as [[-> ->]|Hp']; [|eapply M1; eauto]. rewrite <- (segdist_unique p a b x y Hx Hy). lra.
        -- destruct M2 as [M2|[a' [b' [K1 K2]]]]; auto. right. exists a', b'. auto.
Qed.
Lemma eps_outer_R : forall (pts : list pt) segs l i (m : R),
  (forall s, In s segs -> exists a b, nth_error pts (fst s) = Some a /\ nth_error pts (snd s) = Some b /\ a <> b) ->
  exists m' : R, eps_outer ROps pts segs l i m = Ok m' /\ m' <= m /\
    (forall j p a b x, nth_error l j = Some p -> pair_in pts (i + j) p segs a b -> segment_distance p a b x -> m' <= x) /\
    (m' = m \/ exists j p a b, nth_error l j = Some p /\ pair_in pts (i + j) p segs a b /\ segment_distance p a b m').
Proof. clear peq pdef.
  intros pts segs. induction l as [|p l IH]; intros i m H; cbn [eps_outer].
  - exists m. split; auto. split; [lra|]. split; auto. intros j p a b x Hj. destruct j; discriminate.
  - destruct (eps_inner_R pts i p segs m H) as [m1 [E1 [L1 [A1 B1]]]]. rewrite E1. cbn [bind].
    destruct (IH (S i) m1 H) as [m2 [E2 [L2 [A2 B2]]]]. exists m2. split; auto. split; [lra|]. split.
    + intros j q a b x Hj Hp Hx. destruct j as [|j].
      * cbn in Hj. injection Hj as ->. rewrite Nat.add_0_r in Hp. specialize (A1 a b x Hp Hx). lra.
      * cbn in Hj. replace (i + S j)%nat with (S i + j)%nat in Hp by lia. eapply A2; eauto.
    + destruct B2 as [->|[j [q [a [b [K1 [K2 K3]]]]]]].
      * destruct B1 as [->|[a [b [K1 K2]]]]; auto. right. exists 0%nat, p, a, b. rewrite Nat.add_0_r. auto.
      * right. exists (S j), q, a, b. replace (i + S j)%nat with (S i + j)%nat by lia. auto.
Qed.
Lemma epsilon_R : forall d : drawing, well_formed d -> nondegenerate d -> exists m : R, getCurrentEpsilon ROps A d = Ok m /\
  m <= dbl_max ROps /\ (forall p a b x, apart_pair d p a b -> segment_distance p a b x -> m <= x) /\
  (m = dbl_max ROps \/ exists p a b, apart_pair d p a b /\ segment_distance p a b m).
Proof. clear peq pdef.
  intros d [W _] ND.
  assert (H : forall s, In s (segments d) -> exists a b, nth_error (points d) (fst s) = Some a /\ nth_error (points d) (snd s) = Some b /\ a <> b).
  { intros s Hs. destruct (W s Hs) as [L1 L2]. destruct (nth_error (points d) (fst s)) as [a|] eqn:N1; [|apply nth_error_None in N1; lia].
    destruct (nth_error (points d) (snd s)) as [b|] eqn:N2; [|apply nth_error_None in N2; lia]. exists a, b. repeat (split; auto). eapply ND; eauto. }
  destruct (eps_outer_R (points d) (segments d) (points d) 0 (dbl_max ROps) H) as [m [E [L [M1 M2]]]]. exists m. split; auto. split; auto. split.
  - intros p a b x [i [s [K1 [K2 [K3 [K4 [K5 K6]]]]]]] Hx. eapply (M1 i p a b x); eauto. exists s. auto 6.
  - destruct M2 as [M2|[j [p [a [b [K1 [[s [S1 [S2 [S3 [S4 S5]]]]] K3]]]]]]]; auto. right. exists p, a, b. split; auto. exists j, s. cbn in S4, S5. auto 7.
Qed.

(** ** C58: where refinement points are put *)
Lemma too_close_R : forall (pts : list pt) p bound segs, too_close ROps pts p bound segs = Ok false ->
  forall s a b q, In s segs -> nth_error pts (fst s) = Some a -> nth_error pts (snd s) = Some b -> a <> b -> on_segment q a b -> bound <= dist p q.
Proof. clear pdef.
  intros pts p bound. induction segs as [|t segs IH]; intros H s a b q Hs Ha Hb Hab Hq; [destruct Hs|].
  cbn [too_close] in H. unfold get in H. destruct (nth_error pts (fst t)) as [u|] eqn:N1; [|discriminate]. destruct (nth_error pts (snd t)) as [v|] eqn:N2; [|discriminate].
  cbn [bind] in H. destruct (pointSegmentDistance ROps p u v) as [x|m|m|m] eqn:E; try discriminate. cbn [bind] in H.
  change (ltb ROps x bound) with (Rltb x bound) in H. destruct (Rltb x bound) eqn:L; [discriminate|]. apply Rltb_false in L.
  destruct Hs as [->|Hs]; [|eapply IH; eauto]. rewrite Ha in N1. rewrite Hb in N2. injection N1 as <-. injection N2 as <-.
  destruct (psd_spec p a b Hab) as [y [E1 [_ Hy]]]. rewrite E in E1. injection E1 as <-. specialize (Hy q Hq). lra.
Qed.
(** what holds of a point added around the corner [c] *)
Definition good_point (d : drawing) (segs : list (nat * nat)) (c : pt) (eps : R) (p : pt) : Prop :=
  dist c p = Rabs eps / 100 /\ (exists g, In g (polygons d) /\ poly_contains ROps g p = true) /\
  forall s a b q, In s segs -> nth_error (points d) (fst s) = Some a -> nth_error (points d) (snd s) = Some b -> a <> b -> on_segment q a b -> eps / 200 <= dist p q.
Lemma cand_R : forall c eps segs n j d d' r, (forall s, In s segs -> (fst s < length (points d) /\ snd s < length (points d))%nat) ->
  candidates ROps lm A c eps segs n j d = (d', r) ->
  exists new, points d' = points d ++ new /\ (length new <= n)%nat /\ forall p, In p new -> good_point d segs c eps p.
Proof. clear pdef.
  intros c eps segs n. destruct exact as [Es [Ec [Ep Et]]]. induction n as [|n IH]; intros j d d' r Hs H.
  - cbn in H. inversion H. exists []. rewrite app_nil_r. split; auto. split; auto. intros p [].
  - assert (NIL : d' = d -> exists new, points d' = points d ++ new /\ (length new <= S n)%nat /\ forall p, In p new -> good_point d segs c eps p).
    { intros ->. exists []. rewrite app_nil_r. split; auto. split; [cbn; lia|]. intros p []. }
    cbn [candidates] in H. cbv zeta in H. unfold mbind at 1, mlift at 1 in H.
    destruct (div ROps (mul ROps (ofZ ROps (Z.of_nat j)) (fpi ROps lm)) (ofZ ROps 9)) as [ang|m|m|m]; try (inversion H; subst; apply NIL; auto; fail).
    unfold mbind at 1, mlift at 1 in H.
    assert (D1 : div ROps eps (ofZ ROps 100) = Ok (eps / 100)) by (cbn [div ROps ofZ]; rewrite Rdivr_ok by lra; auto).
    rewrite D1 in H. unfold mbind at 1, mlift at 1 in H.
    assert (D2 : div ROps (eps / 100) (ofZ ROps 2) = Ok (eps / 200)) by (cbn [div ROps ofZ]; rewrite Rdivr_ok by lra; f_equal; field).
    rewrite D2 in H. unfold mbind at 1, mget at 1 in H. unfold mbind at 1, mlift at 1 in H.
    set (p := mkV (add ROps (vx c) (mul ROps (eps / 100) (fcos ROps lm ang))) (add ROps (vy c) (mul ROps (eps / 100) (fsin ROps lm ang)))) in *.
    destruct (too_close ROps (points d) p (eps / 200) segs) as [close|m|m|m] eqn:TC; try (inversion H; subst; apply NIL; auto; fail).
    destruct (negb close && existsb (fun g => poly_contains ROps g p) (polygons d)) eqn:G.
    + unfold mbind at 1 in H. cbn [push_point mget mput mbind with_points] in H.
      match type of H with candidates _ _ _ _ _ _ _ _ ?dd = _ => set (d1 := dd) in H end.
      apply andb_true_iff in G. destruct G as [G1 G2]. destruct close; [discriminate|].
      destruct (IH (S j) d1 d' r) as [new [E1 [L1 H1]]]; auto.
      { intros s S. destruct (Hs s S). unfold d1. cbn. rewrite app_length. lia. }
      exists (p :: new). split; [rewrite E1; unfold d1; cbn; rewrite <- app_assoc; auto|]. split; [cbn; lia|].
      intros p' [<-|Hp].
      * split; [|split].
        -- assert (Dp : px p = px c + eps / 100 * cos ang) by (rewrite <- Ec; reflexivity).
           assert (Dq : py p = py c + eps / 100 * sin ang) by (rewrite <- Es; reflexivity).
           unfold dist. rewrite Dp, Dq.
           replace ((px c - (px c + eps / 100 * cos ang)) * (px c - (px c + eps / 100 * cos ang)) + (py c - (py c + eps / 100 * sin ang)) * (py c - (py c + eps / 100 * sin ang)))
             with ((eps / 100) * (eps / 100) * (sin ang * sin ang + cos ang * cos ang)) by ring.
           rewrite sc1, Rmult_1_r. change (sqrt (Rsqr (eps / 100)) = Rabs eps / 100). rewrite sqrt_Rsqr_abs. unfold Rdiv. rewrite Rabs_mult. f_equal. apply Rabs_right. lra.
        -- apply existsb_exists in G2. exact G2.
        -- intros s a b q. apply (too_close_R (points d) p (eps / 200) segs TC).
      * destruct (H1 p' Hp) as [K1 [K2 K3]]. split; auto. split; auto. intros s a b q S1 S2 S3. apply (K3 s a b q); auto; unfold d1; cbn; apply nth_grow; auto.
    + unfold mbind at 1, mret at 1 in H. destruct (IH (S j) d d' r) as [new [E1 [L1 H1]]]; auto. exists new. split; auto.
Qed.
Lemma refine_R : forall eps n i (d0 : drawing) d d' r l, well_formed d0 -> points d = points d0 ++ l -> segments d = segments d0 -> polygons d = polygons d0 ->
  (i + n <= length (points d0))%nat -> refine_loop ROps lm A eps n i d = (d', r) ->
  exists new, points d' = points d ++ new /\ (length new <= 18 * n)%nat /\ forall p, In p new ->
    exists k c, (i <= k < i + n)%nat /\ nth_error (points d0) k = Some c /\ good_point d0 (filter (fun s => Nat.eqb (fst s) k || Nat.eqb (snd s) k) (segments d0)) c eps p.
Proof. clear pdef.
  intros eps n. induction n as [|n IH]; intros i d0 d d' r l W Hp Hs Hg Hn H.
  - cbn in H. inversion H. exists []. rewrite app_nil_r. split; auto. split; auto. intros p [].
  - assert (NIL : d' = d -> exists new, points d' = points d ++ new /\ (length new <= 18 * S n)%nat /\ forall p, In p new ->
      exists k c, (i <= k < i + S n)%nat /\ nth_error (points d0) k = Some c /\ good_point d0 (filter (fun s => Nat.eqb (fst s) k || Nat.eqb (snd s) k) (segments d0)) c eps p).
    { intros ->. exists []. rewrite app_nil_r. split; auto. split; [cbn; lia|]. intros p []. }
    cbn [refine_loop] in H. unfold mbind at 1, mget at 1 in H. cbv zeta in H. unfold mbind at 1, mlift at 1 in H.
    destruct (div ROps (ofZ ROps 2) (ofZ ROps 3)) as [third|m|m|m]; try (inversion H; subst; apply NIL; auto; fail).
    unfold mbind at 1, mlift at 1 in H. rewrite Hs in H. set (cs := filter (fun s => Nat.eqb (fst s) i || Nat.eqb (snd s) i) (segments d0)) in *.
    destruct (any_sharp ROps lm (points d) (mul ROps (fpi ROps lm) third) cs) as [sharp|m|m|m]; try (inversion H; subst; apply NIL; auto; fail).
    assert (REC : forall d1 new1, points d1 = points d ++ new1 -> segments d1 = segments d0 -> polygons d1 = polygons d0 -> refine_loop ROps lm A eps n (S i) d1 = (d', r) ->
      exists new2, points d' = points d ++ new1 ++ new2 /\ (length new2 <= 18 * n)%nat /\ forall p, In p new2 ->
        exists k c, (i <= k < i + S n)%nat /\ nth_error (points d0) k = Some c /\ good_point d0 (filter (fun s => Nat.eqb (fst s) k || Nat.eqb (snd s) k) (segments d0)) c eps p).
    { intros d1 new1 Q1 Q2 Q3 Q4. destruct (IH (S i) d0 d1 d' r (l ++ new1)) as [new2 [E1 [L1 K1]]]; auto; [rewrite Q1, Hp, app_assoc; auto|lia|].
      exists new2. split; [rewrite E1, Q1, app_assoc; auto|]. split; auto. intros p Hin. destruct (K1 p Hin) as [k [c [B K]]]. exists k, c. split; [lia|auto]. }
    destruct sharp.
    + unfold mbind at 1 in H. unfold mbind at 1, mlift at 1 in H.
      destruct (nth_error (points d0) i) as [c|] eqn:Nc; [|apply nth_error_None in Nc; lia].
      rewrite (get_some _ (points d) i c) in H by (rewrite Hp; apply nth_grow; auto).
      pose proof (r_candidates ROps lm A c eps cs 18 0 d) as RC.
      destruct (candidates ROps lm A c eps cs 18 0 d) as [d1 r1] eqn:E1. cbn [fst] in RC. destruct RC as [_ [C2 [_ [_ C5]]]].
      assert (Hcs : forall s, In s cs -> (fst s < length (points d0) /\ snd s < length (points d0))%nat).
      { intros s S. apply filter_In in S. destruct W as [W _]. apply W. tauto. }
      destruct (cand_R c eps cs 18 0 d d1 r1) as [new1 [Q1 [Q2 Q3]]]; auto.
      { intros s S. destruct (Hcs s S). rewrite Hp, app_length. lia. }
      assert (G1 : forall p, In p new1 -> exists k c, (i <= k < i + S n)%nat /\ nth_error (points d0) k = Some c /\ good_point d0 (filter (fun s => Nat.eqb (fst s) k || Nat.eqb (snd s) k) (segments d0)) c eps p).
      { intros p Hin. exists i, c. split; [lia|]. split; auto. destruct (Q3 p Hin) as [K1 [K2 K3]]. rewrite Hg in K2. split; auto. split; auto.
        intros s a b q S1 S2 S3. apply (K3 s a b q); auto; rewrite Hp; apply nth_grow; auto. }
      destruct r1 as [[]|m|m|m].
      2-4: inversion H; subst d' r; exists new1; split; [auto|split; [lia|exact G1]].
      destruct (REC d1 new1) as [new2 [E2 [L2 K2]]]; auto; try congruence.
      exists (new1 ++ new2). split; auto. split; [rewrite app_length; lia|]. intros p Hin. apply in_app_or in Hin. destruct Hin; auto.
    + unfold mbind at 1, mret at 1 in H. destruct (REC d []) as [new2 [E2 [L2 K2]]]; auto. { rewrite app_nil_r; auto. }
      exists new2. split; auto. split; [lia|auto].
Qed.
Lemma refining_R : forall (d : drawing) d' r, well_formed d -> exec ROps lm A peq AddRefiningPoints d = (d', r) ->
  exists new, points d' = points d ++ new /\ (length new <= 18 * length (points d))%nat /\ forall p, In p new ->
    exists eps k c, getCurrentEpsilon ROps A d = Ok eps /\ nth_error (points d) k = Some c /\ dist c p = Rabs eps / 100 /\
      (exists g, In g (polygons d) /\ poly_contains ROps g p = true) /\
      forall s a b q, In s (segments d) -> fst s = k \/ snd s = k -> nth_error (points d) (fst s) = Some a -> nth_error (points d) (snd s) = Some b -> a <> b -> on_segment q a b ->
        eps / 200 <= dist p q.
Proof. clear pdef.
  intros d d' r W H. cbn [exec] in H. unfold addRefiningPoints in H. unfold mbind at 1, mget at 1 in H. unfold mbind at 1, mlift at 1 in H.
  destruct (getCurrentEpsilon ROps A d) as [eps|m|m|m] eqn:E.
  2-4: inversion H; subst; exists []; rewrite app_nil_r; split; [auto|split; [cbn; lia|intros p []]].
  destruct (refine_R eps (length (points d)) 0 d d d' r []) as [new [E1 [L1 K1]]]; auto. { rewrite app_nil_r; auto. }
  exists new. split; auto. split; auto. intros p Hp. destruct (K1 p Hp) as [k [c [B [Nc [G1 [G2 G3]]]]]]. exists eps, k, c. split; auto. split; auto. split; auto. split; auto.
  intros s a b q S1 S2. apply G3. apply filter_In. split; auto. apply orb_true_iff. rewrite !Nat.eqb_eq. auto.
Qed.

(** ** C53: plot *)
Lemma extent_R : forall (l : list pt) (a b c e : R), exists mx nx my ny : R,
  fold_left (fun st p => let '(mx, nx, my, ny) := st in
    (if gtb ROps (vx p) mx then vx p else mx, if ltb ROps (vx p) nx then vx p else nx,
     if gtb ROps (vy p) my then vy p else my, if ltb ROps (vy p) ny then vy p else ny)) l (a, b, c, e) = (mx, nx, my, ny) /\
  a <= mx /\ nx <= b /\ c <= my /\ ny <= e /\ forall p, In p l -> nx <= px p <= mx /\ ny <= py p <= my.
Proof.
  induction l as [|q l IH]; intros a b c e; cbn [fold_left].
  - exists a, b, c, e. repeat split; try lra; destruct H.
  - unfold gtb. change (ltb ROps) with Rltb. change (vx q) with (px q). change (vy q) with (py q).
    set (a' := if Rltb a (px q) then px q else a). set (b' := if Rltb (px q) b then px q else b).
    set (c' := if Rltb c (py q) then py q else c). set (e' := if Rltb (py q) e then py q else e).
    destruct (IH a' b' c' e') as [mx [nx [my [ny [E [L1 [L2 [L3 [L4 H]]]]]]]]]. unfold gtb in E. change (ltb ROps) with Rltb in E.
    assert (B1 : a <= a' /\ px q <= a') by (unfold a'; destruct (Rltb a (px q)) eqn:F; [apply Rltb_true in F|apply Rltb_false in F]; lra).
    assert (B2 : b' <= b /\ b' <= px q) by (unfold b'; destruct (Rltb (px q) b) eqn:F; [apply Rltb_true in F|apply Rltb_false in F]; lra).
    assert (B3 : c <= c' /\ py q <= c') by (unfold c'; destruct (Rltb c (py q)) eqn:F; [apply Rltb_true in F|apply Rltb_false in F]; lra).
    assert (B4 : e' <= e /\ e' <= py q) by (unfold e'; destruct (Rltb (py q) e) eqn:F; [apply Rltb_true in F|apply Rltb_false in F]; lra).
    exists mx, nx, my, ny. split; [exact E|]. split; [lra|]. split; [lra|]. split; [lra|]. split; [lra|].
    intros p [<-|Hp]; [lra|apply H; auto].
Qed.
Lemma plot_R : forall (l : list pt) (w h : R) p q, 0 < w -> 0 < h -> In p l -> In q l -> px p <> px q \/ py p <> py q ->
  exists t, plot_transform ROps lm l w h = Ok t /\ forall s, In s l ->
    w / 20 <= px (plot_point ROps t s) <= 19 * w / 20 /\ h / 20 <= py (plot_point ROps t s) <= 19 * h / 20.
Proof.
  intros l w h p q Hw Hh Hp Hq Ne. unfold plot_transform.
  destruct (extent_R l (dbl_min ROps lm) (dbl_max ROps) (dbl_min ROps lm) (dbl_max ROps)) as [mx [nx [my [ny [E [_ [_ [_ [_ H]]]]]]]]].
  change (plot_extent ROps lm l = (mx, nx, my, ny)) in E. rewrite E. cbn [div ROps ofZ one]. rewrite !Rdivr_ok by lra. cbn [bind].
  rewrite fmax_R. cbn [sub ROps]. set (ext := Rmax (mx - nx) (my - ny)).
  assert (X1 : mx - nx <= ext) by apply Rmax_l. assert (X2 : my - ny <= ext) by apply Rmax_r.
  assert (X0 : 0 < ext).
  { destruct (H p Hp) as [P1 P2], (H q Hq) as [Q1 Q2]. destruct Ne as [Ne|Ne]; lra. }
  rewrite !Rdivr_ok by lra. cbn [bind]. eexists. split; [reflexivity|]. intros s Hs. destruct (H s Hs) as [S1 S2].
  assert (G : forall k lo hi x, 0 < k -> lo <= x <= hi -> hi - lo <= ext ->
    k / 20 <= 9 / 10 * k / ext * x + (1 / 2 * k - 1 / 2 * (hi + lo) * (9 / 10 * k / ext)) <= 19 * k / 20).
  { intros k lo hi x Hk Hx He.
    replace (9 / 10 * k / ext * x + (1 / 2 * k - 1 / 2 * (hi + lo) * (9 / 10 * k / ext))) with (k / 2 + k * (9 / 10 * ((x - (hi + lo) / 2) / ext))) by (field; lra).
    assert (Y : - (1 / 2) <= (x - (hi + lo) / 2) / ext <= 1 / 2).
    { assert (Ye : (x - (hi + lo) / 2) / ext * ext = x - (hi + lo) / 2) by (field; lra).
      split; apply Rmult_le_reg_r with ext; auto; rewrite Ye; lra. }
    set (y := (x - (hi + lo) / 2) / ext) in *. assert (- (1/2) * k <= k * y <= 1/2 * k).
    { split; [replace (- (1 / 2) * k) with (k * - (1 / 2)) by ring|replace (1 / 2 * k) with (k * (1 / 2)) by ring]; apply Rmult_le_compat_l; lra. }
    replace (k * (9 / 10 * y)) with (9 / 10 * (k * y)) by ring. lra. }
  split; [apply (G w nx mx (px s))|apply (G h ny my (py s))]; auto.
Qed.
End DR2.
