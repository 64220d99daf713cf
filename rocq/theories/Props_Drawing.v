(** Properties C27-C34, C53 (drawing part), C57 and C58.  Vocabulary in DrawingSpec.v, model in DrawingModel.v. *)
From Coq Require Import String.
From Coq Require Import List Arith ZArith NArith Bool Lia Reals Lra.
From Coq Require Import Floats.SpecFloat.
From Verif Require Import Base SumR GeometryModel GeometrySpec Geometry_proofs Circle_proofs Polygon_proofs Segment_proofs Props_Geometry
  SolversSpec Solvers_bridge DrawingModel DrawingSpec Drawing_proofs DrawingR_proofs DrawingR2_proofs DrawingIds_proofs.
Import ListNotations.

(** *** concrete runs.  IEEE: the sine, cosine and arc tangent are not needed for rectangles and polygons. *)
Definition flm : libm FOps :=
  mkLibm FOps (fun x => x) (fun x => x) (fun x _ => x) (one FOps) (S754_finite false (2 ^ 52)%positive (-352)) (one FOps) (fun _ => Ok O).
Notation fexec := (exec FOps flm nat Nat.eqb).
Notation fcall := (call FOps nat).
Fixpoint runs (l : list fcall) (d : drawing FOps nat) : drawing FOps nat * bool :=
  match l with
  | [] => (d, true)
  | c :: l' => match fexec c d with (d', Ok _) => runs l' d' | (d', _) => (d', false) end
  end.
Lemma runs_reached : forall l d, reached FOps flm nat Nat.eqb d -> snd (runs l d) = true -> reached FOps flm nat Nat.eqb (fst (runs l d)).
Proof.
  induction l as [|c l IH]; intros d H E; cbn [runs] in *; auto.
  destruct (fexec c d) as [d' [x|s|s|s]] eqn:X; cbn [snd] in E; try discriminate. apply IH; auto.
  eapply reached_call; eauto. intros [s K]. discriminate.
Qed.
Notation fempty := (empty_drawing FOps nat).

Local Open Scope R_scope.
(** exact arithmetic: a rectangle drawn on the empty sheet *)
Definition rlm : libm ROps := mkLibm ROps sin cos (fun y x => atan (y / x)) PI e100 0 (fun _ => Ok O).
Lemma rlm_exact : exact_libm rlm.
Proof. repeat split. Qed.
Definition sheet : drawing ROps nat := mkD [] [] [P 0 0; P 2 0; P 2 1; P 0 1] [(0, 1); (1, 2); (2, 3); (3, 0)]%nat [[P 0 0; P 2 0; P 2 1; P 0 1]].
Lemma far_x : forall p q : pt, 1 <= Rabs (px p - px q) -> vec_eqb ROps p q = Ok false.
Proof.
  intros p q H. rewrite vec_eqb_R. f_equal. apply Rltb_false.
  assert (Rabs (px p - px q) <= dist p q).
  { apply Rsqr_incr_0; [|apply Rabs_pos|apply dist_nonneg]. rewrite <- Rsqr_abs. unfold Rsqr at 2. rewrite dist_sq. unfold Rsqr.
    pose proof (Rle_0_sqr (py p - py q)). unfold Rsqr in *. lra. }
  pose proof eps9R_pos. unfold eps9R in *. pose proof (Rinv_lt_contravar 1 (10 ^ 9)) as K. rewrite Rinv_1 in K. lra.
Qed.
Lemma far_y : forall p q : pt, 1 <= Rabs (py p - py q) -> vec_eqb ROps p q = Ok false.
Proof.
  intros p q H. rewrite vec_eqb_R. f_equal. apply Rltb_false.
  assert (Rabs (py p - py q) <= dist p q).
  { apply Rsqr_incr_0; [|apply Rabs_pos|apply dist_nonneg]. rewrite <- Rsqr_abs. unfold Rsqr at 2. rewrite dist_sq. unfold Rsqr.
    pose proof (Rle_0_sqr (px p - px q)). unfold Rsqr in *. lra. }
  pose proof eps9R_pos. unfold eps9R in *. pose proof (Rinv_lt_contravar 1 (10 ^ 9)) as K. rewrite Rinv_1 in K. lra.
Qed.
Lemma same_pt : forall p : pt, vec_eqb ROps p p = Ok true.
Proof. intros p. apply (near_iff p p). apply near_self. Qed.
Lemma abs1 : forall x, x <= -1 \/ 1 <= x -> 1 <= Rabs x.
Proof. intros x [H|H]; [rewrite Rabs_left|rewrite Rabs_right]; lra. Qed.
Lemma bb_no : forall p a b : pt, ~ in_box p a b -> pointInSegmentBB ROps p a b = false.
Proof. intros p a b H. apply not_true_iff_false. rewrite bb_R. exact H. Qed.
Ltac rpt := repeat match goal with
  | |- context [vec_eqb ROps ?p ?p] => rewrite (same_pt p)
  | |- context [vec_eqb ROps ?p ?q] => first [rewrite (far_x p q) by (rewrite ?px_P, ?py_P; apply abs1; lra) | rewrite (far_y p q) by (rewrite ?px_P, ?py_P; apply abs1; lra)]
  end; cbn [bind].
Ltac rbb := repeat match goal with
  | |- context [pointInSegmentBB ROps ?p ?a ?b] => rewrite (bb_no p a b) by
      (unfold in_box; rewrite ?px_P, ?py_P; unfold Rmin, Rmax; repeat destruct (Rle_dec _ _); lra)
  end.
Lemma sheet_drawn : exec ROps rlm nat Nat.eqb (DrawRectangle (P 0 0) (P 2 1)) (empty_drawing ROps nat) = (sheet, Ok tt).
Proof.
  cbn [exec]. unfold drawRectangle. change (mkV (vx (P 2 1)) (vy (P 0 0))) with (P 2 0). change (mkV (vx (P 0 0)) (vy (P 2 1))) with (P 0 1).
  do 5 (unfold drawSegment, mbind, mget, mlift, mret, push_point, push_segment, push_polygon, mput, with_points;
    repeat progress (cbn -[vec_eqb pointInSegmentBB segmentsIntersect P]; rpt; rbb)).
  reflexivity.
Qed.
Lemma sheet_reached : reached ROps rlm nat Nat.eqb sheet.
Proof. eapply reached_call; [apply reached_new|apply sheet_drawn|intros [s H]; discriminate]. Qed.

(** *** C27: drawings stay well-formed, for every scalar type and every property type *)
Theorem C27_well_formed : forall (o : Ops) (lm : libm o) (A : Type) (peq : A -> A -> bool), scalar_ops_total o ->
  forall d : drawing o A, reached o lm A peq d -> well_formed d.
Proof. intros o lm A peq H. apply reached_wf; auto. Qed.
Print Assumptions C27_well_formed.
(** no call reads or writes outside an array, except for an empty vertex list *)
Theorem C27_memory_safe : forall (o : Ops) (lm : libm o) (A : Type) (peq : A -> A -> bool), scalar_ops_total o ->
  forall (d : drawing o A) (c : call o A), reached o lm A peq d -> ~ empty_outline c -> ~ is_ub (snd (exec o lm A peq c d)).
Proof.
  intros o lm A peq H d c Hd Hc [s E]. pose proof (wf_exec o lm A peq H c Hc d (reached_wf o lm A peq H d Hd)) as K.
  destruct (exec o lm A peq c d) as [d' r]. cbn in E. subst r. exact K.
Qed.
Print Assumptions C27_memory_safe.
Theorem C27_empty_polygon_refuted : forall (o : Ops) (lm : libm o) (A : Type) (peq : A -> A -> bool) (d : drawing o A),
  is_ub (snd (exec o lm A peq (DrawPolygon []) d)).
Proof. intros. apply empty_polygon_ub. auto. Qed.
Print Assumptions C27_empty_polygon_refuted.
(** what a successful outline call leaves behind: all its edges and the polygon *)
Theorem C27_outline_drawn : forall (lm : libm ROps) (A : Type) (peq : A -> A -> bool), exact_libm lm ->
  forall (c : call ROps A) (d d' : drawing ROps A), is_outline c -> is_u32 (length (outline_vertices c)) -> exec ROps lm A peq c d = (d', Ok tt) ->
  (forall a b, In (a, b) (outline_edges c) -> drawn d' a b) /\ polygons d' = polygons d ++ [outline_vertices c] /\
  (exists l, points d' = points d ++ l) /\ (exists l, segments d' = segments d ++ l).
Proof. intros lm A peq He c d d' Ho Hl H. destruct (outline_done lm A peq He c d d' Ho Hl H) as [H1 [_ [[H2 H3] H4]]]. auto. Qed.
Print Assumptions C27_outline_drawn.
(** every stored polygon is outlined by stored segments, in every reached drawing *)
Theorem C27_polygons_outlined : forall (lm : libm ROps) (A : Type) (peq : A -> A -> bool), exact_libm lm ->
  forall d : drawing ROps A, reached ROps lm A peq d -> forall g, In g (polygons d) -> is_u32 (length g) -> forall a b, In (a, b) (edges g) -> drawn d a b.
Proof. intros lm A peq He d Hd g Hg Hl a b Hi. apply (reached_outlined lm A peq He d Hd g Hg Hl a b Hi). Qed.
Print Assumptions C27_polygons_outlined.
Example C27_example : reached ROps rlm nat Nat.eqb sheet /\ length (segments sheet) = 4%nat /\
  exec ROps rlm nat Nat.eqb (DrawRectangle (P 0 0) (P 2 1)) (empty_drawing ROps nat) = (sheet, Ok tt).
Proof. split; [apply sheet_reached|]. split; [reflexivity|apply sheet_drawn]. Qed.
Example C27_example_ieee : let d := fst (runs [DrawRectangle (FP 0 0) (FP 4 4); DrawRegion (FP 1 1) 7%nat; DrawPolygon [FP 4 0; FP 8 0; FP 4 4]; DrawPoint (FP 9 9)] fempty) in
  reached FOps flm nat Nat.eqb d /\ length (points d) = 6%nat /\ length (segments d) = 6%nat.
Proof. split; [apply runs_reached; [constructor|vm_compute; auto]|split; vm_compute; auto]. Qed.

(** *** C28: crossing segments *)
(** two rectangles that form a cross are both accepted *)
Definition zcross (a b c d : Z * Z) : Prop :=
  cross_properly (P (IZR (fst a)) (IZR (snd a))) (P (IZR (fst b)) (IZR (snd b))) (P (IZR (fst c)) (IZR (snd c))) (P (IZR (fst d)) (IZR (snd d))).
Theorem C28_refuted : exists a b c d : Z * Z, zcross a b c d /\
  exists l1 l2 : list (Z * Z), In (a, b) (combine l1 (tl l1)) /\ In (c, d) (combine l2 (tl l2)) /\
    snd (runs [DrawPolygon (map (fun p => FP (fst p) (snd p)) l1); DrawPolygon (map (fun p => FP (fst p) (snd p)) l2)] fempty) = true.
Proof.
  exists (-3, -1)%Z, (3, -1)%Z, (-1, -3)%Z, (-1, 3)%Z. split.
  - exists (1 / 3), (1 / 3). cbn [fst snd]. split; [lra|]. split; [lra|]. unfold turn, along. rewrite ?px_P, ?py_P. split; [f_equal; field|lra].
  - exists [(-3, -1); (3, -1); (3, 1); (-3, 1)]%Z, [(1, 3); (1, -3); (-1, -3); (-1, 3)]%Z.
    split; [left; auto|]. split; [right; right; left; auto|]. vm_compute. auto.
Qed.
Print Assumptions C28_refuted.
(** What does hold: a proper crossing is rejected, whichever edge of the outline it is on, if an end of the new edge lies in the
    bounding box of the stored segment.  Missing from the full statement: the condition [in_box]. *)
Theorem C28_crossing_partial : forall (lm : libm ROps) (A : Type) (peq : A -> A -> bool), exact_libm lm ->
  forall (d : drawing ROps A) (c : call ROps A) pre a b post s u v, reached ROps lm A peq d -> is_outline c ->
  match c with DrawPolygon l => l <> [] /\ is_u32 (length l) | _ => True end ->
  outline_edges c = pre ++ (a, b) :: post -> (forall a' b', In (a', b') pre -> ~ overlay a b a' b') -> ~ drawn d a b ->
  In s (segments d) -> nth_error (points d) (fst s) = Some u -> nth_error (points d) (snd s) = Some v ->
  cross_properly a b u v -> e100 <= Rabs (turn a b u) -> e100 <= Rabs (turn a b v) ->
  ~ near u a -> ~ near u b -> ~ near v a -> ~ near v b -> in_box a u v \/ in_box b u v ->
  is_throw (snd (exec ROps lm A peq c d)).
Proof.
  intros lm A peq He d c pre a b post s u v Hd Ho Hl Hc Hp Nd Hs Hu Hv Hx T1 T2 N1 N2 N3 N4 Hb.
  rewrite (exec_run lm A peq He c d Ho Hl), Hc. apply (reached_wf ROps lm A peq total_ROps) in Hd.
  destruct (run_throws lm A He pre a b post d s u v) as [m E]; auto. unfold mbind. destruct (run_edges _ _ _ d) as [d1 r]. cbn in E. subst r.
  eexists; reflexivity.
Qed.
Print Assumptions C28_crossing_partial.
(** the other direction: a rejected outline really meets a segment in the drawing *)
Theorem C28_rejection_justified : forall (lm : libm ROps) (A : Type) (peq : A -> A -> bool), exact_libm lm ->
  forall (d d' : drawing ROps A) (c : call ROps A) m, is_outline c -> match c with DrawPolygon l => is_u32 (length l) | _ => True end ->
  exec ROps lm A peq c d = (d', Throw m) ->
  (forall a b, In (a, b) (outline_edges c) -> a <> b /\ forall q, In q (points d') -> coarse_for a b q) ->
  exists a b, In (a, b) (outline_edges c) /\ meets_stored d' a b.
Proof.
  intros lm A peq He d d' c m Ho Hl H Hq. destruct (outline_blames lm A peq He c Ho Hl d d' m H) as [a [b [s [u [v [Hi [Hs [Hu [Hv Hx]]]]]]]]].
  exists a, b. split; auto. destruct (Hq a b Hi) as [Ne Hq']. exists s, u, v. repeat (split; auto).
  apply (C24_sound a b u v); auto; apply Hq'; eapply nth_error_In; eauto.
Qed.
Print Assumptions C28_rejection_justified.
(** the situation of C28_crossing_partial: a triangle over the diagonal of another one *)
Example C28_example : let c : call ROps nat := DrawPolygon [P 1 2; P 2 1; P 5 5] in
  outline_edges c = [] ++ (P 1 2, P 2 1) :: [(P 2 1, P 5 5); (P 5 5, P 1 2)] /\
  cross_properly (P 1 2) (P 2 1) (P 0 0) (P 4 4) /\ 1 <= Rabs (turn (P 1 2) (P 2 1) (P 0 0)) /\ 1 <= Rabs (turn (P 1 2) (P 2 1) (P 4 4)) /\
  in_box (P 1 2) (P 0 0) (P 4 4) /\ ~ near (P 0 0) (P 1 2).
Proof.
  cbv zeta. split; [reflexivity|]. split.
  { exists (1 / 2), (3 / 8). split; [lra|]. split; [lra|]. unfold turn, along. rewrite ?px_P, ?py_P. split; [f_equal; field|lra]. }
  unfold turn, in_box. rewrite ?px_P, ?py_P.
  split; [apply abs1; lra|]. split; [apply abs1; lra|]. split; [unfold Rmin, Rmax; repeat destruct (Rle_dec _ _); lra|].
  intros N. apply near_iff in N. unfold matches in N. rewrite far_x in N by (rewrite !px_P; apply abs1; lra). discriminate.
Qed.
Example C28_example_ieee : snd (runs [DrawPolygon [FP 0 0; FP 4 4; FP 4 0]] fempty) = true /\
  snd (runs [DrawPolygon [FP 0 0; FP 4 4; FP 4 0]; DrawPolygon [FP 1 2; FP 2 1; FP 5 5]] fempty) = false.
Proof. vm_compute. auto. Qed.

(** *** C29: a failing call *)
Theorem C29_refuted : exists (l : list fcall) (c : fcall), is_outline c /\ snd (runs l fempty) = true /\ snd (runs (l ++ [c]) fempty) = false /\
  length (points (fst (runs (l ++ [c]) fempty))) <> length (points (fst (runs l fempty))) /\
  length (segments (fst (runs (l ++ [c]) fempty))) <> length (segments (fst (runs l fempty))).
Proof.
  exists [DrawPolygon [FP 0 0; FP 4 0; FP 0 4]], (DrawPolygon [FP 8 8; FP 1 8; FP 1 1; FP 9 1]). split; [exact I|]. vm_compute. repeat split; discriminate.
Qed.
Print Assumptions C29_refuted.
(** what does hold, for every scalar type: a call that fails may leave points and segments behind and touches nothing else *)
Theorem C29_failure_only_adds_partial : forall (o : Ops) (lm : libm o) (A : Type) (peq : A -> A -> bool) (c : call o A) (d d' : drawing o A) r,
  is_outline c -> exec o lm A peq c d = (d', r) -> ~ is_ok r -> only_adds d d'.
Proof.
  intros o lm A peq c d d' r Ho H Nr. pose proof (outline_fail o lm A peq c Ho d) as K. rewrite H in K.
  destruct r as [x|s|s|s]; auto. exfalso. apply Nr. eexists; eauto.
Qed.
Print Assumptions C29_failure_only_adds_partial.
(** the other calls: drawRegion and translate never fail; drawPoint neither *)
Theorem C29_others_succeed : forall (o : Ops) (lm : libm o) (A : Type) (peq : A -> A -> bool) (d : drawing o A) (p : vec o) (v : A),
  is_ok (snd (exec o lm A peq (DrawRegion p v) d)) /\ is_ok (snd (exec o lm A peq (Translate p) d)) /\ is_ok (snd (exec o lm A peq (DrawPoint p) d)).
Proof.
  intros o lm A peq d p v. split; [|split; eexists; reflexivity].
  destruct (exec o lm A peq (DrawRegion p v) d) as [d' r] eqn:E. destruct (region_done o lm A peq p v d d' r E) as [-> _]. eexists; reflexivity.
Qed.
Print Assumptions C29_others_succeed.

(** *** C30: points are merged *)
Definition same_points (d : drawing FOps nat) (i j : nat) : bool :=
  match nth_error (points d) i, nth_error (points d) j with
  | Some p, Some q => match vec_eqb FOps p q with Ok b => b | _ => false end
  | _, _ => false
  end.
Theorem C30_refuted : (exists p : vec FOps, snd (runs [DrawRectangle p p] fempty) = true /\ same_points (fst (runs [DrawRectangle p p] fempty)) 0 1 = true) /\
  exists p : vec FOps, snd (runs [DrawPoint p; DrawPoint p] fempty) = true /\ same_points (fst (runs [DrawPoint p; DrawPoint p] fempty)) 0 1 = true.
Proof. split; exists (FP 1 2); vm_compute; auto. Qed.
Print Assumptions C30_refuted.
(** what does hold: without drawPoint and addRefiningPoints, if no outline has an edge shorter than the tolerance, points stay apart.
    Missing from the full statement: the length condition. *)
Theorem C30_merged_partial : forall (lm : libm ROps) (A : Type) (peq : A -> A -> bool), exact_libm lm ->
  forall d : drawing ROps A, merged_history lm A peq tol9 d -> separated d.
Proof. intros lm A peq He d H. apply (merged_tidy lm A peq He tol9 d); auto. apply Rle_refl. Qed.
Print Assumptions C30_merged_partial.
(** and with edges of twice the tolerance no segment has both ends in one point *)
Theorem C30_segments_have_two_ends : forall (lm : libm ROps) (A : Type) (peq : A -> A -> bool), exact_libm lm ->
  forall d : drawing ROps A, merged_history lm A peq (2 * tol9) d -> separated d /\ forall s, In s (segments d) -> fst s <> snd s.
Proof.
  intros lm A peq He d H. pose proof eps9R_pos as E. change eps9R with tol9 in E.
  destruct (merged_tidy lm A peq He (2 * tol9) d) as [H1 H2]; auto; try lra. split; auto. apply H2. lra.
Qed.
Print Assumptions C30_segments_have_two_ends.
Lemma dist_ge1 : forall p q : pt, 1 <= Rabs (px p - px q) \/ 1 <= Rabs (py p - py q) -> 2 * tol9 <= dist p q.
Proof.
  intros p q H. assert (S : Rabs (px p - px q) <= dist p q /\ Rabs (py p - py q) <= dist p q).
  { pose proof (Rle_0_sqr (px p - px q)). pose proof (Rle_0_sqr (py p - py q)). pose proof (dist_sq p q) as D.
    split; (apply Rsqr_incr_0; [|apply Rabs_pos|apply dist_nonneg]); rewrite <- Rsqr_abs; unfold Rsqr in *; lra. }
  unfold tol9. pose proof (Rinv_lt_contravar 2 (10 ^ 9)) as K. lra.
Qed.
Example C30_example : merged_history rlm nat Nat.eqb (2 * tol9) sheet.
Proof.
  eapply merged_call; [apply merged_new|apply sheet_drawn|intros [s H]; discriminate|exact I|].
  intros a b H. cbn [outline_edges edges combine app In] in H.
  destruct H as [H|[H|[H|[H|[]]]]]; injection H as <- <-; apply dist_ge1; rewrite ?px_P, ?py_P; [left|right|left|right]; apply abs1; lra.
Qed.

(** *** C31: region ids *)
(** the id that drawRegion records resolves to the property, or to an earlier one that operator== takes for it *)
Theorem C31_recorded : forall (o : Ops) (lm : libm o) (A : Type) (peq : A -> A -> bool) p v (d d' : drawing o A) r,
  exec o lm A peq (DrawRegion p v) d = (d', r) ->
  r = Ok tt /\ exists id w, regions d' = regions d ++ [(p, id)] /\ getRegionPtrFromId o A d' id = Ok w /\ (w = v \/ peq w v = true) /\
    points d' = points d /\ segments d' = segments d /\ polygons d' = polygons d.
Proof.
  intros o lm A peq p v d d' r H. destruct (region_done o lm A peq p v d d' r H) as [H1 [id [w [H2 [H3 [H4 [_ H5]]]]]]].
  split; auto. exists id, w. pose proof (ptr_spec o A d' id) as K. rewrite H3 in K. auto.
Qed.
Print Assumptions C31_recorded.
(** later calls never change what an id stands for, nor the ids of the seeds *)
Theorem C31_stable : forall (o : Ops) (lm : libm o) (A : Type) (peq : A -> A -> bool) (d d' : drawing o A), later o lm A peq d d' ->
  (forall id w, getRegionPtrFromId o A d id = Ok w -> getRegionPtrFromId o A d' id = Ok w) /\
  exists l, map snd (regions d') = map snd (regions d) ++ l.
Proof.
  intros o lm A peq d d' H. split; [|apply (later_keeps o lm A peq d d' H)]. intros id w. apply (ids_later o lm A peq d d' id w H).
Qed.
Print Assumptions C31_stable.
(** looking an id up never reads out of bounds: it throws exactly for ids that were not given out; recorded ids always resolve *)
Theorem C31_lookup : forall (o : Ops) (lm : libm o) (A : Type) (peq : A -> A -> bool), scalar_ops_total o -> forall (d : drawing o A) (id : nat),
  (if (id <? length (region_map d))%nat then is_ok (getRegionPtrFromId o A d id) else is_throw (getRegionPtrFromId o A d id)) /\
  (reached o lm A peq d -> forall r, In r (regions d) -> is_ok (getRegionPtrFromId o A d (snd r))).
Proof.
  intros o lm A peq H d id.
  assert (K : forall i, (i < length (region_map d))%nat -> is_ok (getRegionPtrFromId o A d i)).
  { intros i Hi. pose proof (ptr_spec o A d i) as K. destruct (nth_error (region_map d) i) eqn:E; [eexists; eauto|]. apply nth_error_None in E. lia. }
  split.
  - destruct (Nat.ltb_spec id (length (region_map d))) as [L|L]; auto. pose proof (ptr_spec o A d id) as Q. rewrite (proj2 (nth_error_None _ _) L) in Q. exact Q.
  - intros Hd r Hr. apply K. apply (reached_wf o lm A peq H d Hd). auto.
Qed.
Print Assumptions C31_lookup.
(** drawing the same property again gives the same id (if operator== holds of the property and itself) *)
Theorem C31_same_property_same_id : forall (o : Ops) (lm : libm o) (A : Type) (peq : A -> A -> bool) p q v (d d1 d2 d3 : drawing o A) r1 r2 i j,
  exec o lm A peq (DrawRegion p v) d = (d1, r1) -> later o lm A peq d1 d2 -> exec o lm A peq (DrawRegion q v) d2 = (d3, r2) ->
  last (regions d1) (p, O) = (p, i) -> last (regions d3) (q, O) = (q, j) -> peq v v = true -> i = j.
Proof. intros o lm A peq p q v d d1 d2 d3 r1 r2 i j E1 L E2 I J H. eapply (same_id o lm A peq p q v v); eauto. Qed.
Print Assumptions C31_same_property_same_id.
(** equal properties get equal ids when operator== is an equivalence (current density: exact comparison of sigma, without NaN) *)
Theorem C31_equal_properties_partial : forall (o : Ops) (lm : libm o) (A : Type) (peq : A -> A -> bool) p q v w (d d1 d2 d3 : drawing o A) r1 r2 i j,
  (forall x y, peq x y = true -> peq y x = true) -> (forall x y z, peq x y = true -> peq y z = true -> peq x z = true) ->
  exec o lm A peq (DrawRegion p v) d = (d1, r1) -> later o lm A peq d1 d2 -> exec o lm A peq (DrawRegion q w) d2 = (d3, r2) ->
  last (regions d1) (p, O) = (p, i) -> last (regions d3) (q, O) = (q, j) -> peq v w = true -> i = j.
Proof.
  intros o lm A peq p q v w d d1 d2 d3 r1 r2 i j Hs Ht E1 L E2 I J H. eapply (same_id o lm A peq p q v w); eauto.
  intros x. destruct (peq x v) eqn:E3, (peq x w) eqn:E4; auto.
  - rewrite <- E4. symmetry. eapply Ht; eauto.
  - rewrite <- E3. eapply Ht; eauto.
Qed.
Print Assumptions C31_equal_properties_partial.
(** with the tolerance in the comparison of magnetisations (properties.hpp: operator== compares M by Vector ==) it fails *)
Definition near_props (u v : vec FOps) : bool := match vec_eqb FOps u v with Ok b => b | _ => false end.
Definition nano (k : Z) : vec FOps := @mkV FOps (f64_div (f64_ofZ k) (f64_ofZ 10000000000)) (zero FOps).
Definition ids_of (l : list (vec FOps)) : list nat :=
  map snd (regions (fold_left (fun d v => fst (exec FOps flm (vec FOps) near_props (DrawRegion (FP 0 0) v) d)) l (empty_drawing FOps (vec FOps)))).
Theorem C31_equal_refuted : exists u v w : vec FOps, near_props u w = true /\ near_props w v = true /\ ids_of [u; v; w] = [0; 1; 0]%nat.
Proof. exists (nano 0), (nano 15), (nano 8). vm_compute. auto. Qed.
Print Assumptions C31_equal_refuted.
Example C31_example : map snd (regions (fst (runs [DrawRegion (FP 0 0) 5%nat; DrawRegion (FP 1 1) 6%nat; Translate (FP 3 3); DrawRegion (FP 2 2) 5%nat] fempty))) = [0; 1; 0]%nat.
Proof. vm_compute. auto. Qed.

(** *** C32: translation *)
Theorem C32_translate : forall (lm : libm ROps) (A : Type) (peq : A -> A -> bool) (v : pt) (d : drawing ROps A),
  exec ROps lm A peq (Translate v) d = (moved v d, Ok tt).
Proof. exact translate_moved. Qed.
Print Assumptions C32_translate.
Theorem C32_translate_back : forall (lm : libm ROps) (A : Type) (peq : A -> A -> bool) (v : pt) (d : drawing ROps A),
  exec ROps lm A peq (Translate (P (- px v) (- py v))) (fst (exec ROps lm A peq (Translate v) d)) = (d, Ok tt).
Proof. intros lm A peq v d. rewrite (translate_moved lm A peq v d). cbn [fst]. rewrite translate_moved, moved_back. auto. Qed.
Print Assumptions C32_translate_back.
(** the answers do not change: polygon properties, smallest feature size, distances, turns, containment *)
Theorem C32_answers_unchanged : forall (A : Type) (pdef : A) (v : pt) (d : drawing ROps A),
  (forall g, getPolygonProp ROps A pdef (moved v d) (map (shift v) g) = getPolygonProp ROps A pdef d g) /\
  getCurrentEpsilon ROps A (moved v d) = getCurrentEpsilon ROps A d /\
  (forall g p, poly_contains ROps (map (shift v) g) (shift v p) = poly_contains ROps g p) /\
  (forall p q, dist (shift v p) (shift v q) = dist p q) /\ (forall p q r, turn (shift v p) (shift v q) (shift v r) = turn p q r).
Proof.
  intros A pdef v d. split; [intros; apply prop_shift|]. split; [apply epsilon_shift|]. split; [intros; apply contains_shift|].
  split; [intros; apply dist_shift|intros; apply turn_shift].
Qed.
Print Assumptions C32_answers_unchanged.
(** in IEEE arithmetic the way back does not restore the drawing *)
Theorem C32_ieee_refuted : exists v w p : vec FOps, w = vneg FOps v /\
  match points (fst (runs [DrawPoint p; Translate v; Translate w] fempty)) with [q] => SFeqb (vx q) (vx p) | _ => true end = false.
Proof. exists (FP (2 ^ 60) 0), (vneg FOps (FP (2 ^ 60) 0)), (FP 1 0). split; auto. Qed.
Print Assumptions C32_ieee_refuted.
Example C32_example : points (moved (P 1 1) sheet) = [P (0 + 1) (0 + 1); P (2 + 1) (0 + 1); P (2 + 1) (1 + 1); P (0 + 1) (1 + 1)].
Proof. reflexivity. Qed.

(** *** C33: the property of a polygon *)
(** two seeds in the outer of two nested rectangles: the default property is reported, not that of the outer seed *)
Definition nested : list fcall := [DrawRectangle (FP 0 0) (FP 10 10); DrawRectangle (FP 4 4) (FP 6 6); DrawRegion (FP 1 1) 7%nat; DrawRegion (FP 5 5) 8%nat].
Definition prop_of (d : drawing FOps nat) (k : nat) : nat :=
  match getPolygonProp FOps nat 0%nat d (nth k (polygons d) []) with Ok v => v | _ => 99%nat end.
Theorem C33_refuted : let d := fst (runs nested fempty) in snd (runs nested fempty) = true /\
  poly_contains FOps (nth 0 (polygons d) []) (FP 1 1) = true /\ poly_contains FOps (nth 1 (polygons d) []) (FP 1 1) = false /\
  prop_of d 0 = 0%nat /\ prop_of d 1 = 8%nat.
Proof. vm_compute. auto. Qed.
Print Assumptions C33_refuted.
(** what the call does, exactly.  One seed: its property.  None: an exception.  Several: the default property. *)
Theorem C33_exact_partial : forall (A : Type) (pdef : A) (d : drawing ROps A) p, well_formed d -> In p (polygons d) ->
  match seeds_in d p with
  | [] => is_throw (getPolygonProp ROps A pdef d p)
  | [r] => exists v, nth_error (region_map d) (snd r) = Some v /\ getPolygonProp ROps A pdef d p = Ok v
  | _ => getPolygonProp ROps A pdef d p = Ok pdef
  end.
Proof. exact prop_cases. Qed.
Print Assumptions C33_exact_partial.
Theorem C33_unknown_polygon : forall (A : Type) (pdef : A) (d : drawing ROps A) p,
  (forall q, In q (polygons d) -> poly_eqb ROps q p = Ok false) -> is_throw (getPolygonProp ROps A pdef d p).
Proof. intros A pdef d p H. unfold getPolygonProp. rewrite (has_not _ _ H). eexists; reflexivity. Qed.
Print Assumptions C33_unknown_polygon.
Example C33_example : exists d p, well_formed d /\ In p (polygons d) /\ seeds_in d p = [(P 1 (1 / 2), O)] /\ getPolygonProp ROps nat 0%nat d p = Ok 5%nat.
Proof.
  set (d := mkD [5%nat] [(P 1 (1 / 2), O)] (points sheet) (segments sheet) (polygons sheet)). exists d, [P 0 0; P 2 0; P 2 1; P 0 1].
  assert (W : well_formed d).
  { destruct (reached_wf ROps rlm nat Nat.eqb total_ROps sheet sheet_reached) as [W1 [W2 _]]. split; [exact W1|]. split; [exact W2|].
    intros r [<-|[]]. cbn. lia. }
  assert (I : In [P 0 0; P 2 0; P 2 1; P 0 1] (polygons d)) by (left; auto). split; auto. split; auto.
  assert (S : seeds_in d [P 0 0; P 2 0; P 2 1; P 0 1] = [(P 1 (1 / 2), O)]).
  { unfold seeds_in. cbn [d regions filter fst]. replace (poly_contains ROps _ (P 1 (1 / 2))) with true; auto.
    symmetry. apply C22_rectangle; rewrite ?px_P, ?py_P; lra. }
  split; auto. pose proof (C33_exact_partial nat 0%nat d _ W I) as K. rewrite S in K. destruct K as [v [K1 K2]]. cbn in K1. injection K1 as <-. exact K2.
Qed.

(** *** C34: refinement only adds points, for every scalar type and every outcome *)
Theorem C34_refining_only_adds : forall (o : Ops) (lm : libm o) (A : Type) (peq : A -> A -> bool) (d d' : drawing o A) r,
  exec o lm A peq AddRefiningPoints d = (d', r) -> only_adds_points d d'.
Proof. intros o lm A peq d d' r H. pose proof (r_refine o lm A d) as K. cbn [exec] in H. rewrite H in K. exact K. Qed.
Print Assumptions C34_refining_only_adds.
Theorem C34_magnets_only_add : forall (o : Ops) (lm : libm o) (A : Type) (mag : A -> vec o) (d d' : drawing o A) r,
  refineMeshAroundMagnets o lm A mag d = (d', r) -> only_adds_points d d'.
Proof. intros o lm A mag d d' r H. pose proof (r_refine_magnets o lm A mag d) as K. rewrite H in K. exact K. Qed.
Print Assumptions C34_magnets_only_add.

(** *** C53 (drawing part): the plot maps every point into the image, with a margin of one twentieth *)
Theorem C53_plot_inside : forall (lm : libm ROps) (l : list pt) (w h : R) p q, 0 < w -> 0 < h -> In p l -> In q l -> px p <> px q \/ py p <> py q ->
  exists t, plot_transform ROps lm l w h = Ok t /\ forall s, In s l ->
    w / 20 <= px (plot_point ROps t s) <= 19 * w / 20 /\ h / 20 <= py (plot_point ROps t s) <= 19 * h / 20.
Proof. exact plot_R. Qed.
Print Assumptions C53_plot_inside.
Example C53_example : In (P (-3) (-1)) [P (-3) (-1); P (-1) (-1)] /\ px (P (-3) (-1)) <> px (P (-1) (-1)).
Proof. rewrite !px_P. split; [left; auto|lra]. Qed.

(** *** C57: the feature size *)
Theorem C57_feature_size : forall (A : Type) (d : drawing ROps A), well_formed d -> nondegenerate d ->
  exists m : R, getCurrentEpsilon ROps A d = Ok m /\ m <= dbl_max ROps /\
    (forall p a b x, apart_pair d p a b -> segment_distance p a b x -> m <= x) /\
    (m = dbl_max ROps \/ exists p a b, apart_pair d p a b /\ segment_distance p a b m).
Proof. exact epsilon_R. Qed.
Print Assumptions C57_feature_size.
Example C57_example : well_formed sheet /\ nondegenerate sheet /\ apart_pair sheet (P 0 0) (P 2 0) (P 2 1).
Proof.
  split; [apply (reached_wf ROps rlm nat Nat.eqb total_ROps sheet sheet_reached)|]. split.
  - intros s a b Hs Ha Hb E. pose proof (f_equal px E) as X. pose proof (f_equal py E) as Y. clear E. cbn [sheet segments] in Hs.
    destruct Hs as [<-|[<-|[<-|[<-|[]]]]]; cbn [sheet points nth_error fst snd] in Ha, Hb; injection Ha as <-; injection Hb as <-; rewrite ?px_P, ?py_P in *; lra.
  - exists O, (1, 2)%nat. cbn. repeat split; auto.
Qed.

(** *** C58: where refining points go *)
Theorem C58_refining_points : forall (lm : libm ROps) (A : Type) (peq : A -> A -> bool), exact_libm lm ->
  forall (d d' : drawing ROps A) r, well_formed d -> exec ROps lm A peq AddRefiningPoints d = (d', r) ->
  exists new, points d' = points d ++ new /\ (length new <= 18 * length (points d))%nat /\ forall p, In p new ->
    exists eps k c, getCurrentEpsilon ROps A d = Ok eps /\ nth_error (points d) k = Some c /\ dist c p = Rabs eps / 100 /\
      (exists g, In g (polygons d) /\ poly_contains ROps g p = true) /\
      forall s a b q, In s (segments d) -> fst s = k \/ snd s = k -> nth_error (points d) (fst s) = Some a -> nth_error (points d) (snd s) = Some b -> a <> b -> on_segment q a b ->
        eps / 200 <= dist p q.
Proof. exact refining_R. Qed.
Print Assumptions C58_refining_points.
(** points added around magnets lie inside a magnet, for every scalar type *)
Theorem C58_magnet_points : forall (o : Ops) (lm : libm o) (A : Type) (mag : A -> vec o) (d d' : drawing o A) r,
  refineMeshAroundMagnets o lm A mag d = (d', r) ->
  exists new, points d' = points d ++ new /\ forall p, In p new -> exists g, magnet_outline mag d g /\ poly_contains o g p = true.
Proof. exact magnets_inside. Qed.
Print Assumptions C58_magnet_points.
(** a drawing on which refinement runs; with crude stand-ins for sine, cosine and arc tangent both calls add points *)
Example C58_example : well_formed sheet.
Proof. apply (reached_wf ROps rlm nat Nat.eqb total_ROps sheet sheet_reached). Qed.
Definition flm2 : libm FOps :=
  mkLibm FOps (fun x => x) (fun x => x) (fun _ _ => zero FOps) (one FOps) (S754_finite false (2 ^ 52)%positive (-352)) (one FOps) (fun _ => Ok 3%nat).
Example C58_example_ieee : let d := fst (runs [DrawRectangle (FP 0 0) (FP 4 4); DrawRegion (FP 1 1) 7%nat] fempty) in
  Nat.ltb (length (points d)) (length (points (fst (refineMeshAroundMagnets FOps flm2 nat (fun _ => FP 0 1) d)))) = true /\
  Nat.ltb (length (points d)) (length (points (fst (addRefiningPoints FOps flm2 nat d)))) = true.
Proof. vm_compute. auto. Qed.
