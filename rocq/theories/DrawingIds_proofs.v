(** Proofs about drawings: outlines as sequences of segments (C28), region ids (C31). *)
From Coq Require Import String.
From Coq Require Import List Arith ZArith NArith Bool Lia Reals Lra.
From Verif Require Import Base SumR GeometryModel GeometrySpec Geometry_proofs Circle_proofs Polygon_proofs Segment_proofs
  SolversSpec Solvers_bridge DrawingModel DrawingSpec Drawing_proofs DrawingR_proofs DrawingR2_proofs.
Import ListNotations.

(** ** region ids (C31) *)
Section Ids.
Variable o : Ops.
Variable lm : libm o.
Variable A : Type.
Variable peq : A -> A -> bool.
Notation drawing := (drawing o A).

Lemma region_done : forall p v (d d' : drawing) r, exec o lm A peq (DrawRegion p v) d = (d', r) ->
  r = Ok tt /\ exists id w, regions d' = regions d ++ [(p, id)] /\ nth_error (region_map d') id = Some w /\ (w = v \/ peq w v = true) /\
    (forall j u, j < id -> nth_error (region_map d') j = Some u -> peq u v = false) /\
    points d' = points d /\ segments d' = segments d /\ polygons d' = polygons d.
Proof.
  intros p v d d' r H. cbn [exec] in H. unfold drawRegion, getRegionId, DrawingModel.mbind, mget, mput, mret in H.
  pose proof (find_prop_spec A peq (region_map d) 0 v) as F. destruct (find_prop A peq (region_map d) 0 v) as [k|]; cbn in H; inversion H; subst; cbn.
  - destruct F as [w [_ [F1 [F2 F3]]]]. rewrite Nat.sub_0_r in *. split; auto. exists k, w. repeat (split; auto).
  - split; auto. exists (length (region_map d)), v. split; auto. split; [rewrite nth_error_app2, Nat.sub_diag by lia; auto|]. split; auto. split; auto.
    intros j u Hj Hn. rewrite nth_error_app1 in Hn by auto. apply F. eapply nth_error_In; eauto.
Qed.
Definition keeps_ids (d d' : drawing) : Prop :=
  (exists l, region_map d' = region_map d ++ l) /\ (exists l, map snd (regions d') = map snd (regions d) ++ l).
Lemma ki_pre : preorder o A keeps_ids.
Proof.
  split.
  - intros d. split; exists []; rewrite app_nil_r; auto.
  - intros a b c [[l1 H1] [l2 H2]] [[l3 H3] [l4 H4]]. split; [exists (l1 ++ l3); rewrite H3, H1|exists (l2 ++ l4); rewrite H4, H2]; rewrite app_assoc; auto.
Qed.
Lemma oa_ki : forall X (c : M o A X), rel o A (@only_adds o A) c -> rel o A keeps_ids c.
Proof. intros X c H d. destruct (H d) as [_ [_ [H1 [H2 _]]]]. split; exists []; rewrite app_nil_r; congruence. Qed.
Lemma ki_polygon : forall l, rel o A keeps_ids (push_polygon o A l).
Proof. intros l d. split; exists []; rewrite app_nil_r; auto. Qed.
Lemma ki_exec : forall c, rel o A keeps_ids (exec o lm A peq c).
Proof.
  intros c. destruct c; cbn [exec].
  - unfold drawRectangle. repeat (apply r_bind; [apply ki_pre|apply oa_ki, r_drawSegment|intros]). apply ki_polygon.
  - unfold drawRectangleWH, drawRectangle. repeat (apply r_bind; [apply ki_pre|apply oa_ki, r_drawSegment|intros]). apply ki_polygon.
  - unfold drawCircle. destruct n_segments; [apply ki_polygon|]. apply r_bind; [apply ki_pre|apply r_lift, ki_pre|intros].
    apply r_bind; [apply ki_pre|apply oa_ki, r_circle_loop|intros]. apply ki_polygon.
  - unfold drawPolygon. cbv zeta. apply r_bind; [apply ki_pre|apply oa_ki, r_polygon_loop|intros].
    do 2 (apply r_bind; [apply ki_pre|apply r_lift, ki_pre|intros]). apply r_bind; [apply ki_pre|apply oa_ki, r_drawSegment|intros]. apply ki_polygon.
  - intros d. destruct (exec o lm A peq (DrawRegion p val) d) as [d' r] eqn:E.
    change (drawRegion o A peq p val d) with (exec o lm A peq (DrawRegion p val) d). rewrite E. cbn [fst].
    destruct (region_done _ _ _ _ _ E) as [_ [id [w [H _]]]]. split; [|exists [id]; rewrite H, map_app; auto].
    cbn [exec] in E. unfold drawRegion, getRegionId, DrawingModel.mbind, mget, mput, mret in E.
    destruct (find_prop A peq (region_map d) 0 val); cbn in E; inversion E; subst; cbn; [exists []; rewrite app_nil_r|eexists]; auto.
  - apply oa_ki. apply r_weaken, r_push_point.
  - apply oa_ki. apply r_weaken, r_refine.
  - intros d. split; exists []; rewrite app_nil_r; cbn; auto. rewrite map_map. auto.
Qed.
Lemma later_keeps : forall d d', later o lm A peq d d' -> keeps_ids d d'.
Proof.
  induction 1 as [|d1 c d2 r H IH E]; [apply ki_pre|]. destruct ki_pre as [_ T]. eapply T; [exact IH|].
  pose proof (ki_exec c d1) as K. rewrite E in K. exact K.
Qed.
Lemma ptr_spec : forall (d : drawing) id, match nth_error (region_map d) id with
  | Some w => getRegionPtrFromId o A d id = Ok w | None => is_throw (getRegionPtrFromId o A d id) end.
Proof.
  intros d id. unfold getRegionPtrFromId, get. destruct (nth_error (region_map d) id) as [w|] eqn:E.
  - assert (id < length (region_map d)) by (apply nth_error_Some; congruence). destruct (Nat.leb_spec (length (region_map d)) id); auto. lia.
  - apply nth_error_None in E. destruct (Nat.leb_spec (length (region_map d)) id); [eexists; eauto|lia].
Qed.
Lemma ids_later : forall d d' id w, later o lm A peq d d' -> getRegionPtrFromId o A d id = Ok w -> getRegionPtrFromId o A d' id = Ok w.
Proof.
  intros d d' id w H E. destruct (later_keeps _ _ H) as [[l L] _]. pose proof (ptr_spec d id) as P. pose proof (ptr_spec d' id) as P'.
  destruct (nth_error (region_map d) id) as [u|] eqn:N; [|destruct P as [m P]; congruence].
  rewrite L, nth_error_app1, N in P' by (apply nth_error_Some; congruence). congruence.
Qed.
Lemma same_id : forall p q v w (d d1 d2 d3 : drawing) r1 r2 i j, exec o lm A peq (DrawRegion p v) d = (d1, r1) -> later o lm A peq d1 d2 ->
  exec o lm A peq (DrawRegion q w) d2 = (d3, r2) -> last (regions d1) (p, 0) = (p, i) -> last (regions d3) (q, 0) = (q, j) ->
  peq v w = true -> (forall x, peq x v = peq x w) -> i = j.
Proof.
  intros p q v w d d1 d2 d3 r1 r2 i j E1 L E2 I J Hvw Hx.
  destruct (region_done _ _ _ _ _ E1) as [_ [i' [x [R1 [N1 [M1 [F1 _]]]]]]].
  assert (L2 : later o lm A peq d1 d3) by (eapply later_call; eauto).
  destruct (region_done _ _ _ _ _ E2) as [_ [j' [y [R2 [N2 [M2 [F2 _]]]]]]].
  destruct (later_keeps _ _ L2) as [[l K] _].
  rewrite R1, last_last in I. injection I as <-. rewrite R2, last_last in J. injection J as <-.
  assert (NI : nth_error (region_map d3) i' = Some x) by (rewrite K, nth_error_app1; auto; apply nth_error_Some; congruence).
  assert (PX : peq x w = true) by (destruct M1 as [->|M1]; auto; rewrite <- Hx; auto).
  destruct (lt_eq_lt_dec i' j') as [[Lt|Eq]|Gt]; auto; exfalso.
  - specialize (F2 i' x Lt NI). congruence.
  - assert (LT : j' < length (region_map d1)) by (assert (i' < length (region_map d1)) by (apply nth_error_Some; congruence); lia).
    assert (NJ : nth_error (region_map d1) j' = Some y) by (rewrite K, nth_error_app1 in N2; auto).
    assert (FY := F1 j' y Gt NJ). rewrite Hx in FY. destruct M2 as [->|M2]; [|congruence].
    (* the property itself cannot sit before x: it would have been found there *)
    assert (G : exists k : nat, k < length (region_map d3) /\ nth_error (region_map d3) k = Some x /\ peq x w = true) by (exists i'; split; auto; apply nth_error_Some; congruence).
    clear G. 
    cbn [exec] in E2. unfold drawRegion, getRegionId, DrawingModel.mbind, mget, mput, mret in E2.
    destruct (later_keeps _ _ L) as [[l' K'] _].
    pose proof (find_prop_spec A peq (region_map d2) 0 w) as FS. destruct (find_prop A peq (region_map d2) 0 w) as [k|]; cbn in E2; inversion E2; subst d3; cbn in *.
    + apply app_inj_tail in R2. destruct R2 as [_ R2]. injection R2 as ->. destruct FS as [u [_ [FS1 [FS2 _]]]]. rewrite Nat.sub_0_r in FS1. congruence.
    + assert (peq x w = false) by (apply FS; rewrite K'; apply in_or_app; left; eapply nth_error_In; eauto). congruence.
Qed.
End Ids.

Local Open Scope R_scope.
(** ** every outline call draws its edges one after the other *)
Section Run.
Variable lm : libm ROps.
Variable A : Type.
Variable peq : A -> A -> bool.
Notation drawing := (drawing ROps A).
Notation mbind := (DrawingModel.mbind ROps A).
Fixpoint run_edges (l : list (pt * pt)) : M ROps A unit :=
  match l with
  | [] => mret ROps A tt
  | (a, b) :: l' => mbind (drawSegment ROps lm A a b) (fun _ => run_edges l')
  end.
Lemma run_app : forall l l' d, run_edges (l ++ l') d = mbind (run_edges l) (fun _ => run_edges l') d.
Proof.
  induction l as [|[a b] l IH]; intros l' d; cbn [run_edges app]; auto. unfold DrawingModel.mbind at 1 2 3.
  destruct (drawSegment ROps lm A a b d) as [d1 [[]|s|s|s]]; auto. rewrite IH. reflexivity.
Qed.
Lemma polyloop_run : forall rest pre x d, polygon_loop ROps lm A (pre ++ x :: rest) (length rest) (length pre) d = run_edges (combine (x :: rest) rest) d.
Proof.
  induction rest as [|y rest IH]; intros pre x d; [reflexivity|].
  cbn [polygon_loop length combine run_edges]. unfold DrawingModel.mbind at 1, mlift at 1, get at 1.
  rewrite nth_error_app2, Nat.sub_diag by lia. cbn [nth_error]. unfold DrawingModel.mbind at 1, mlift at 1, get at 1.
  rewrite nth_error_app2 by lia. replace (length pre + 1 - length pre)%nat with 1%nat by lia. cbn [nth_error].
  unfold DrawingModel.mbind. destruct (drawSegment ROps lm A x y d) as [d1 [[]|s|s|s]]; auto.
  specialize (IH (pre ++ [x]) y d1). rewrite <- app_assoc in IH. cbn [app] in IH. rewrite app_length in IH. cbn [length] in IH.
  replace (length pre + 1)%nat with (S (length pre)) in IH by lia. exact IH.
Qed.
Lemma combine_last : forall (l : list pt) x w z, combine (x :: l) (l ++ [w]) = combine (x :: l) l ++ [(last (x :: l) z, w)].
Proof.
  induction l as [|y l IH]; intros x w z; [reflexivity|]. cbn [app]. change (combine (x :: y :: l) (y :: l ++ [w])) with ((x, y) :: combine (y :: l) (l ++ [w])).
  rewrite (IH y w z). reflexivity.
Qed.
Lemma edges_split : forall (l : list pt) x, edges (x :: l) = combine (x :: l) l ++ [(last (x :: l) x, x)].
Proof. intros l x. unfold edges. apply combine_last. Qed.
Lemma nth_last : forall (l : list pt) x z, nth_error (x :: l) (length l) = Some (last (x :: l) z).
Proof. induction l as [|y l IH]; intros x z; [reflexivity|]. cbn [length]. change (nth_error (y :: l) (length l) = Some (last (y :: l) z)). apply IH. Qed.
Lemma check_fin : forall (pts : list pt) p1 p2 new segs m, check_segments ROps lm pts p1 p2 new segs <> NonFin m.
Proof.
  induction segs as [|t segs IH]; intros m; cbn [check_segments]; [discriminate|].
  destruct (same_segment t new); [discriminate|]. destruct (connected t new); auto. unfold get.
  destruct (nth_error pts (fst t)); [|discriminate]. destruct (nth_error pts (snd t)); [|discriminate]. cbn [bind].
  destruct (negb _); auto. match goal with |- (if ?b then _ else _) <> _ => destruct b end; auto. discriminate.
Qed.
Hypothesis exact : exact_libm lm.
Lemma circleloop_run : forall c r n j k mine d, (0 < n)%nat ->
  circle_loop ROps lm A c r (2 * PI / INR n) j (INR k * (2 * PI / INR n)) (circle_vertex c r n k) mine d =
  mbind (run_edges (map (fun i => (circle_vertex c r n i, circle_vertex c r n (S i))) (seq k j)))
        (fun _ => mret ROps A (mine ++ map (circle_vertex c r n) (seq (S k) j))) d.
Proof.
  intros c r n j. induction j as [|j IH]; intros k mine d Hn; cbn [circle_loop seq map run_edges].
  - cbn. rewrite app_nil_r. auto.
  - cbv zeta. rewrite (circle_angle n k), (circle_next lm exact c r n (S k)). unfold DrawingModel.mbind.
    destruct (drawSegment ROps lm A (circle_vertex c r n k) (circle_vertex c r n (S k)) d) as [d1 [[]|s|s|s]]; auto.
    rewrite IH by auto. unfold DrawingModel.mbind. destruct (run_edges _ d1) as [d2 [[]|s|s|s]]; auto.
    cbn. rewrite <- app_assoc. auto.
Qed.
Lemma exec_run : forall c (d : drawing), is_outline c -> match c with DrawPolygon l => l <> [] /\ is_u32 (length l) | _ => True end ->
  exec ROps lm A peq c d = mbind (run_edges (outline_edges c)) (fun _ => push_polygon ROps A (outline_vertices c)) d.
Proof.
  assert (RECT : forall p q d, drawRectangle ROps lm A p q d = mbind (run_edges (edges [p; P (px q) (py p); q; P (px p) (py q)]))
    (fun _ => push_polygon ROps A [p; P (px q) (py p); q; P (px p) (py q)]) d).
  { intros p q d. unfold drawRectangle. change (mkV (vx q) (vy p)) with (P (px q) (py p)). change (mkV (vx p) (vy q)) with (P (px p) (py q)).
    cbn [edges combine app run_edges]. unfold DrawingModel.mbind.
    repeat match goal with |- context [drawSegment ROps lm A ?a ?b ?d] => destruct (drawSegment ROps lm A a b d) as [? [[]|?|?|?]]; auto end. }
  intros c d Ho Hl. destruct c; simpl in Ho; try contradiction; cbn [exec outline_edges outline_vertices].
  - apply RECT.
  - unfold drawRectangleWH. apply RECT.
  - destruct n_segments as [|n0]; [reflexivity|]. set (n := S n0). assert (Hn : (0 < n)%nat) by (unfold n; lia).
    rewrite (circle_open lm A exact) by auto. unfold DrawingModel.mbind at 1. rewrite circleloop_run by auto. unfold DrawingModel.mbind.
    destruct (run_edges _ d) as [d2 [[]|s|s|s]]; auto.
  - destruct Hl as [Ne Hl]. destruct l as [|x t]; [congruence|]. unfold drawPolygon. cbv zeta.
    assert (Hn : length (x :: t) <> 0%nat) by discriminate. rewrite (u32_id _ Hl), (u32_sub_pos _ Hn Hl).
    cbn [length]. replace (S (length t) - 1)%nat with (length t) by lia.
    unfold DrawingModel.mbind at 1. pose proof (polyloop_run t [] x d) as PR. cbn [app length] in PR. rewrite PR. clear PR.
    rewrite edges_split. unfold DrawingModel.mbind at 4. rewrite run_app. unfold DrawingModel.mbind at 4.
    destruct (run_edges (combine (x :: t) t) d) as [d1 [[]|s|s|s]]; auto.
    unfold DrawingModel.mbind at 1, mlift at 1. 
    assert (G : get (x :: t) (length t) = Ok (last (x :: t) x)).
    { unfold get. rewrite (nth_last t x x). auto. }
    rewrite G. unfold DrawingModel.mbind at 1, mlift at 1, get. cbn [nth_error run_edges]. unfold DrawingModel.mbind.
    destruct (drawSegment ROps lm A (last (x :: t) x) x d1) as [d2 [[]|s|s|s]]; auto.
Qed.

(** ** a crossing that the prefilter lets through is rejected, whichever edge of the outline it is (C28) *)
Lemma dist_near : forall p a b : pt, near p a -> near p b -> dist b a < 2 * tol9.
Proof.
  intros p a b H1 H2. unfold near in *. pose proof (dist_tri b p a) as T. rewrite (dist_sym b p) in T. lra.
Qed.
Lemma run_throws : forall pre a b post (d : drawing) s u v, well_formed d -> In s (segments d) ->
  nth_error (points d) (fst s) = Some u -> nth_error (points d) (snd s) = Some v ->
  cross_properly a b u v -> e100 <= Rabs (turn a b u) -> e100 <= Rabs (turn a b v) -> (in_box a u v \/ in_box b u v) ->
  ~ near u a -> ~ near u b -> ~ near v a -> ~ near v b -> ~ drawn d a b ->
  (forall a' b', In (a', b') pre -> ~ overlay a b a' b') ->
  is_throw (snd (run_edges (pre ++ (a, b) :: post) d)).
Proof.
  induction pre as [|[a' b'] pre IH]; intros a b post d s u v W Hs Hu Hv Hx T1 T2 Hb N1 N2 N3 N4 Nd Hp; cbn [app run_edges]; unfold DrawingModel.mbind.
  - destruct (crossing_throws lm A exact d a b s u v W Hs Hu Hv Hx T1 T2 Hb N1 N2 N3 N4 Nd) as [m E].
    destruct (drawSegment ROps lm A a b d) as [d1 r]. cbn in E. subst r. eexists; reflexivity.
  - pose proof (h_drawSegment ROps lm A total_ROps a' b' d W) as K.
    destruct (drawSegment_R lm A a' b' d) as [i1 [i2 [l1 [l2 [P1 [P2 E]]]]]]. cbv zeta in E.
    destruct (placed_at1 _ _ _ _ l2 P1) as [q1 [Q1 M1]]. destruct (placed_at2 _ _ _ _ _ P2) as [q2 [Q2 M2]].
    assert (ND : forall segs, (forall t, In t segs -> In t (segments d) \/ t = (i1, i2)) -> ~ drawn (after ROps A d (points d ++ l1 ++ l2) segs) a b).
    { intros segs Hsegs [t [p [q [D1 [D2 [D3 D4]]]]]]. cbn in D1, D2, D3. destruct (Hsegs t D1) as [Ht|Ht].
      - destruct W as [W _]. destruct (W t Ht) as [L1 L2]. apply Nd. exists t, p, q. rewrite nth_error_app1 in D2, D3 by auto. auto.
      - subst t. cbn in D2, D3. rewrite Q1 in D2. rewrite Q2 in D3. injection D2 as <-. injection D3 as <-. apply (Hp a' b'); [left; auto|].
        destruct D4 as [[D4 D5]|[D4 D5]]; [left|right]; split; eapply dist_near; eauto. }
    assert (STEP : forall segs, well_formed (after ROps A d (points d ++ l1 ++ l2) segs) -> (forall t, In t segs -> In t (segments d) \/ t = (i1, i2)) -> In s segs ->
      is_throw (snd (run_edges (pre ++ (a, b) :: post) (after ROps A d (points d ++ l1 ++ l2) segs)))).
    { intros segs W' Hsegs Hss. apply (IH a b post _ s u v); auto; try (cbn; apply nth_grow; auto). intros; apply Hp; right; auto. }
    rewrite E in *.
    destruct (check_segments ROps lm (points d ++ l1 ++ l2) a' b' (i1, i2) (segments d)) as [[]|m|m|m] eqn:CK; try contradiction.
    + apply STEP; auto; [|apply in_or_app; auto]. intros t Ht. apply in_app_or in Ht. destruct Ht as [Ht|[<-|[]]]; auto.
    + apply STEP; auto.
    + eexists; reflexivity.
    + exfalso. eapply check_fin; eauto.
Qed.
End Run.
