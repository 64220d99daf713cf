(** Innermost polygon, area integral, mass, barycentre and inertia in exact arithmetic. *)
From Coq Require Import String.
From Coq Require Import List Arith ZArith NArith Bool Lia Reals Lra Permutation.
From Verif Require Import Base SumR AlgebraModel AlgebraSpec Coo_proofs Csr_proofs GeometryModel GeometrySpec DrawingModel DrawingSpec Geometry_proofs Polygon_proofs MeshModel MeshSpec Adjacency_proofs Fem_proofs MeshGeo_proofs.
Import ListNotations.
Local Open Scope R_scope.

Lemma poly_neqb_R : forall g h : list pt, exists b, poly_neqb ROps g h = Ok b /\ (b = true <-> differ g h).
Proof.
  intros g h. unfold poly_neqb, poly_eqb. destruct (Nat.eqb_spec (length g) (length h)) as [E|N]; cbn [negb].
  - assert (G : exists b, poly_eqb_loop ROps g h = Ok b /\ (b = false <-> exists p q, In (p, q) (combine g h) /\ ~ near p q)).
    { clear E. revert h. induction g as [|x g IH]; intros h; cbn [poly_eqb_loop combine].
      - exists true. split; auto. split; [discriminate|intros [p [q [[] _]]]].
      - destruct h as [|y h]; [exists true; split; auto; split; [discriminate|intros [p [q [[] _]]]]|].
        unfold vec_neqb. rewrite vec_eqb_R. cbn [bind]. change eps9R with tol9. destruct (Rltb (dist x y) tol9) eqn:D; cbn [negb].
        + unfold Rltb in D. destruct (Rlt_dec (dist x y) tol9) as [L|]; [|discriminate D]. destruct (IH h) as [b [-> Hb]]. exists b. split; auto. rewrite Hb. split; intros [p [q [I X]]]; exists p, q; split; auto.
          * right. auto.
          * destruct I as [I|I]; auto. injection I as <- <-. contradiction.
        + exists false. split; auto. split; auto. intros _. exists x, y. split; [left; auto|]. unfold near. intros L. unfold Rltb in D. destruct (Rlt_dec (dist x y) tol9); [discriminate D|contradiction]. }
    destruct G as [b [-> Hb]]. cbn [bind]. exists (negb b). split; auto. unfold differ. rewrite negb_true_iff, Hb. split; [tauto|intros [X|X]; [contradiction|auto]].
  - cbn [bind]. exists true. split; auto. unfold differ. tauto.
Qed.
Lemma is_magnet_R : forall g l, exists b, is_magnet ROps g l = Ok b /\ (b = true <-> minimal l g).
Proof.
  intros g l. induction l as [|h l [b [E Hb]]]; cbn [is_magnet].
  - exists true. split; auto. split; auto. intros _ h [].
  - destruct (poly_neqb_R g h) as [n [-> Hn]]. cbn [bind]. destruct (n && poly_contains_poly ROps g h) eqn:X.
    + apply andb_true_iff in X as [-> X]. exists false. split; auto. split; [discriminate|]. intros M. rewrite (M h) in X; [discriminate X|left; auto|apply Hn; auto].
    + exists b. split; auto. rewrite Hb. split; intros M k Hk D.
      * destruct Hk as [<-|Hk]; [|apply M; auto]. apply Hn in D. rewrite D in X. exact X.
      * apply M; auto. right. auto.
Qed.
Lemma first_minimal_R : forall all l, exists g, first_minimal ROps all l = Ok g /\
  ((In g l /\ minimal all g) \/ (g = [] /\ forall h, In h l -> ~ minimal all h)).
Proof.
  intros all l. induction l as [|h l [g [E Hg]]]; cbn [first_minimal]; [exists []; split; auto|].
  destruct (is_magnet_R h all) as [b [-> Hb]]. cbn [bind]. destruct b.
  - exists h. split; auto. left. split; [left; auto|apply Hb; auto].
  - exists g. split; auto. destruct Hg as [[H1 H2]|[H1 H2]]; [left; split; [right; auto|auto]|right; split; auto].
    intros k [<-|Hk]; [|apply H2; auto]. intros M. apply Hb in M. discriminate M.
Qed.

Section Integrals.
Context {A : Type}.
Implicit Types m : mesh ROps A.
Lemma differ_self : forall g, ~ differ g g.
Proof.
  intros g [N|[p [q [I N]]]]; [auto|]. apply N. assert (p = q) as ->.
  { clear N. induction g as [|x g IH]; cbn [combine] in I; [destruct I|]. destruct I as [I|I]; [injection I; congruence|auto]. }
  unfold near. rewrite dist_self. exact eps9R_pos.
Qed.
Lemma innermost_R : forall m p,
  ((forall g, ~ around m p g) -> exists s, getInnermostPolygon ROps A m p = Throw s) /\
  ((exists g, around m p g) -> exists g, getInnermostPolygon ROps A m p = Ok g /\
     ((around m p g /\ forall h, around m p h -> differ g h -> poly_contains_poly ROps g h = false) \/
      (g = [] /\ forall h, around m p h -> exists k, around m p k /\ differ h k /\ poly_contains_poly ROps h k = true))).
Proof.
  intros m p. unfold getInnermostPolygon. set (tp := vminus ROps p (m_center m)). set (F := filter _ _).
  assert (I : forall g, In g F <-> around m p g) by (intros g; unfold F, around; rewrite filter_In; reflexivity).
  split.
  - intros N. destruct F as [|g F'] eqn:E; [eexists; reflexivity|]. exfalso. apply (N g). apply I. left. auto.
  - intros [g0 H0]. destruct F as [|g F'] eqn:E; [apply I in H0 as []|]. destruct F' as [|g' F''].
    + exists g. split; auto. left. split; [apply I; left; auto|].
      intros h Hh D. apply I in Hh. destruct Hh as [<-|[]]. destruct (differ_self _ D).
    + destruct (first_minimal_R (g :: g' :: F'') (g :: g' :: F'')) as [r [-> Hr]]. exists r. split; auto.
      destruct Hr as [[H1 H2]|[H1 H2]].
      * left. split; [apply I; auto|]. intros h Hh. apply H2. apply I. auto.
      * right. split; auto. intros h Hh. apply I in Hh.
        destruct (is_magnet_R h (g :: g' :: F'')) as [b [Eb Hb]]. destruct b; [exfalso; apply (H2 h Hh); apply Hb; auto|].
        clear - Eb I. assert (Z : forall l, is_magnet ROps h l = Ok false -> exists k, In k l /\ differ h k /\ poly_contains_poly ROps h k = true).
        { induction l as [|k l IH]; cbn [is_magnet]; intros X; [discriminate X|]. destruct (poly_neqb_R h k) as [n [En Hn]]. rewrite En in X. cbn [bind] in X.
          destruct (n && poly_contains_poly ROps h k) eqn:Y.
          - apply andb_true_iff in Y as [-> Y]. exists k. split; [left; auto|]. split; auto. apply Hn. auto.
          - destruct (IH X) as [k' [K1 K2]]. exists k'. split; [right; auto|auto]. }
        destruct (Z _ Eb) as [k [K1 K2]]. exists k. split; auto. apply I. auto.
Qed.

Lemma inside_bool : forall m g t, tri_inside ROps g (pos m (t0 t)) (pos m (t1 t)) (pos m (t2 t)) = forallb (fun v => poly_contains ROps g (pos m v)) (corners t).
Proof. intros m g t. unfold tri_inside, corners. cbn [forallb]. rewrite andb_true_r, andb_assoc. reflexivity. Qed.
Lemma suml_filter_step : forall X (f : X -> bool) (h : X -> R) x l, suml (filter f (x :: l)) h = (if f x then h x else 0) + suml (filter f l) h.
Proof. intros X f h x l. cbn [filter]. destruct (f x); [rewrite suml_cons; reflexivity|ring]. Qed.

Definition tri_ok m := Forall (tri_in (length (m_points m))) (m_tris m).
Lemma area_sum : forall m g ts acc, Forall (tri_in (length (m_points m))) ts ->
  forM_list ts (fun t acc => '(p1, p2, p3) <- tri_points ROps (m_points m) t ;;
    if tri_inside ROps g p1 p2 p3 then a <- area ROps p1 p2 p3 ;; Ok (add ROps acc a) else Ok acc) acc =
  Ok (acc + suml (filter (fun t => forallb (fun v => poly_contains ROps g (pos m v)) (corners t)) ts) (tri_area m)).
Proof.
  intros m g ts. induction ts as [|t ts IH]; intros acc H; cbn [forM_list].
  - cbn [filter]. change (suml [] (tri_area m)) with 0. f_equal. change (T ROps) with R in *. ring.
  - inversion H as [|? ? Ht Hts]; subst. rewrite (tri_points_ok A m t Ht). cbn [bind]. rewrite inside_bool.
    rewrite suml_filter_step. destruct (forallb _ (corners t)).
    + rewrite area_R. cbn [bind]. rewrite IH by auto. f_equal. change (T ROps) with R in *. unfold tri_area at 2, tri_turn.
      change (add ROps acc (Rabs (turn (pos m (t0 t)) (pos m (t1 t)) (pos m (t2 t))) / 2)) with (acc + Rabs (turn (pos m (t0 t)) (pos m (t1 t)) (pos m (t2 t))) / 2). ring.
    + cbn [bind]. rewrite IH by auto. f_equal. change (T ROps) with R in *. ring.
Qed.
Lemma area_val : forall m p g, tri_ok m -> getInnermostPolygon ROps A m p = Ok g ->
  computeAreaIntegral ROps A m p = Ok (suml (inner_tris m g) (tri_area m)).
Proof. intros m p g H E. unfold computeAreaIntegral. rewrite E. cbn [bind]. rewrite area_sum by exact H. f_equal. unfold inner_tris. change (zero ROps) with 0. change (T ROps) with R in *. ring. Qed.
Lemma mass_val : forall m p g k, tri_ok m -> getInnermostPolygon ROps A m p = Ok g ->
  computeMass ROps A m p k = Ok (k * m_depth m * suml (inner_tris m g) (tri_area m)).
Proof.
  intros m p g k H E. unfold computeMass. rewrite (area_val m p g) by auto. cbn [bind]. f_equal.
  change (suml (inner_tris m g) (tri_area m) * m_depth m * k = k * m_depth m * suml (inner_tris m g) (tri_area m)). ring.
Qed.
Lemma third : forall p1 p2 p3 : pt, vdivs ROps (vadd ROps (vadd ROps p1 p2) p3) (ofZ ROps 3) =
  Ok (P ((px p1 + px p2 + px p3) / 3) ((py p1 + py p2 + py p3) / 3)).
Proof.
  intros p1 p2 p3. unfold vdivs. change (ofZ ROps 3) with 3. rewrite !Rdiv_ok by lra. reflexivity.
Qed.
Lemma bary_sum : forall m g ts (a : R) (b : pt), Forall (tri_in (length (m_points m))) ts ->
  let F := filter (fun t => forallb (fun v => poly_contains ROps g (pos m v)) (corners t)) ts in
  forM_list ts (fun t acc => '(p1, p2, p3) <- tri_points ROps (m_points m) t ;;
      if tri_inside ROps g p1 p2 p3 then
        ta <- area ROps p1 p2 p3 ;;
        c <- vdivs ROps (vadd ROps (vadd ROps p1 p2) p3) (ofZ ROps 3) ;;
        Ok (add ROps (fst acc) ta, vadd ROps (snd acc) (vmul ROps c ta))
      else Ok acc) (a, b) =
  Ok (a + suml F (tri_area m), P (px b + suml F (fun t => tri_area m t * px (centroid m t))) (py b + suml F (fun t => tri_area m t * py (centroid m t)))).
Proof.
  intros m g ts. induction ts as [|t ts IH]; intros a b H F; cbn [forM_list].
  - unfold F. cbn [filter]. do 2 f_equal.
    + change (a = a + 0). ring.
    + change (b = P (px b + 0) (py b + 0)). apply pt_ext; rewrite ?px_P, ?py_P; ring.
  - inversion H as [|? ? Ht Hts]; subst. unfold F. rewrite (tri_points_ok A m t Ht). cbn [bind]. rewrite inside_bool.
    rewrite !suml_filter_step. destruct (forallb _ (corners t)).
    + rewrite area_R, third. cbn [bind fst snd]. 
      change (add ROps a (Rabs (turn (pos m (t0 t)) (pos m (t1 t)) (pos m (t2 t))) / 2)) with (a + tri_area m t).
      change (P ((px (pos m (t0 t)) + px (pos m (t1 t)) + px (pos m (t2 t))) / 3) ((py (pos m (t0 t)) + py (pos m (t1 t)) + py (pos m (t2 t))) / 3)) with (centroid m t).
      change (vadd ROps b (vmul ROps (centroid m t) (Rabs (turn (pos m (t0 t)) (pos m (t1 t)) (pos m (t2 t))) / 2))) with (P (px b + px (centroid m t) * tri_area m t) (py b + py (centroid m t) * tri_area m t)).
      rewrite IH by auto. do 2 f_equal.
      * change (T ROps) with R in *. ring.
      * apply pt_ext; rewrite ?px_P, ?py_P; ring.
    + cbn [bind]. rewrite IH by auto. do 2 f_equal.
      * change (T ROps) with R in *. ring.
      * apply pt_ext; rewrite ?px_P, ?py_P; ring.
Qed.
Lemma bary_val : forall m p g, tri_ok m -> getInnermostPolygon ROps A m p = Ok g ->
  let F := inner_tris m g in let a := suml F (tri_area m) in
  (a = 0 -> is_nonfin (computeBarycenter ROps A m p)) /\
  (a <> 0 -> computeBarycenter ROps A m p = Ok (P (suml F (fun t => tri_area m t * px (centroid m t)) / a) (suml F (fun t => tri_area m t * py (centroid m t)) / a))).
Proof.
  intros m p g H E F a. unfold computeBarycenter. rewrite E. cbn [bind]. change (vzero ROps) with (P 0 0). change (zero ROps) with 0. rewrite bary_sum by exact H. cbn [bind].
  rewrite !px_P, !py_P, !Rplus_0_l. fold (inner_tris m g). fold F. fold a. unfold vdivs. split; intros Ha.
  - cbn [div ROps]. unfold Rdivr. destruct (Req_EM_T a 0); [eexists; reflexivity|contradiction].
  - rewrite !Rdiv_ok by auto. reflexivity.
Qed.
Lemma inertia_sum : forall m g c ts (acc : R), Forall (tri_in (length (m_points m))) ts ->
  forM_list ts (fun t acc => '(p1, p2, p3) <- tri_points ROps (m_points m) t ;;
      if tri_inside ROps g p1 p2 p3 then
        ta <- area ROps p1 p2 p3 ;;
        k <- vdivs ROps (vadd ROps (vadd ROps p1 p2) p3) (ofZ ROps 3) ;;
        Ok (add ROps acc (mul ROps ta (normSquared ROps (vminus ROps k c))))
      else Ok acc) acc =
  Ok (acc + suml (filter (fun t => forallb (fun v => poly_contains ROps g (pos m v)) (corners t)) ts) (fun t => tri_area m t * (dist (centroid m t) c * dist (centroid m t) c))).
Proof.
  intros m g c ts. induction ts as [|t ts IH]; intros acc H; cbn [forM_list].
  - cbn [filter]. f_equal. change (acc = acc + 0). ring.
  - inversion H as [|? ? Ht Hts]; subst. rewrite (tri_points_ok A m t Ht). cbn [bind]. rewrite inside_bool.
    rewrite !suml_filter_step. destruct (forallb _ (corners t)).
    + rewrite area_R, third. cbn [bind]. rewrite IH by auto. f_equal. rewrite dist_sq.
      change (P ((px (pos m (t0 t)) + px (pos m (t1 t)) + px (pos m (t2 t))) / 3) ((py (pos m (t0 t)) + py (pos m (t1 t)) + py (pos m (t2 t))) / 3)) with (centroid m t).
      change (acc + tri_area m t * ((px (centroid m t) - px c) * (px (centroid m t) - px c) + (py (centroid m t) - py c) * (py (centroid m t) - py c)) +
        suml (filter (fun t => forallb (fun v => poly_contains ROps g (pos m v)) (corners t)) ts) (fun t => tri_area m t * (dist (centroid m t) c * dist (centroid m t) c)) =
        acc + (tri_area m t * ((px (centroid m t) - px c) * (px (centroid m t) - px c) + (py (centroid m t) - py c) * (py (centroid m t) - py c)) +
        suml (filter (fun t => forallb (fun v => poly_contains ROps g (pos m v)) (corners t)) ts) (fun t => tri_area m t * (dist (centroid m t) c * dist (centroid m t) c)))). ring.
    + cbn [bind]. rewrite IH by auto. f_equal. change (T ROps) with R in *. ring.
Qed.
Lemma inertia_val : forall m p g c k, tri_ok m -> getInnermostPolygon ROps A m p = Ok g ->
  computeInertiaMoment ROps A m p c k = Ok (k * m_depth m * suml (inner_tris m g) (fun t => tri_area m t * (dist (centroid m t) c * dist (centroid m t) c))).
Proof.
  intros m p g c k H E. unfold computeInertiaMoment. rewrite E. cbn [bind]. change (zero ROps) with 0. rewrite inertia_sum by exact H. cbn [bind]. f_equal.
  fold (inner_tris m g). set (s := suml _ _). change ((0 + s) * m_depth m * k = k * m_depth m * s). ring.
Qed.
Lemma area_nonneg : forall m t, 0 <= tri_area m t.
Proof. intros m t. unfold tri_area. pose proof (Rabs_pos (tri_turn m t)). lra. Qed.
Lemma inner_in : forall m g t, In t (inner_tris m g) -> In t (m_tris m) /\ forall v, In v (corners t) -> poly_contains ROps g (pos m v) = true.
Proof. intros m g t H. apply filter_In in H as [H1 H2]. split; auto. rewrite forallb_forall in H2. auto. Qed.
(** every half plane that contains the vertices of the part contains the barycentre *)
Lemma suml_le_in : forall X (l : list X) f h, (forall x, In x l -> f x <= h x) -> suml l f <= suml l h.
Proof. intros X l f h. induction l as [|x l IH]; intros H; [unfold suml; cbn; lra|]. rewrite !suml_cons. pose proof (H x (or_introl eq_refl)). assert (suml l f <= suml l h) by (apply IH; intros; apply H; right; auto). lra. Qed.
Lemma bary_half_plane : forall m p g B u v w, tri_ok m -> getInnermostPolygon ROps A m p = Ok g -> computeBarycenter ROps A m p = Ok B ->
  (forall i, (i < length (m_points m))%nat -> poly_contains ROps g (pos m i) = true -> u * px (pos m i) + v * py (pos m i) <= w) ->
  u * px B + v * py B <= w.
Proof.
  intros m p g B u v w H E EB HV. destruct (bary_val m p g H E) as [Z N]. set (F := inner_tris m g) in *. set (a := suml F (tri_area m)) in *.
  destruct (Req_dec a 0) as [Ha|Ha]; [destruct (Z Ha) as [s X]; rewrite X in EB; discriminate EB|]. rewrite (N Ha) in EB.
  set (sx := suml F (fun t => tri_area m t * px (centroid m t))) in *. set (sy := suml F (fun t => tri_area m t * py (centroid m t))) in *.
  injection EB as EB.
  assert (EX : sx = px B * a) by (rewrite <- EB, px_P; field; auto). assert (EY : sy = py B * a) by (rewrite <- EB, py_P; field; auto).
  assert (Pa : 0 < a). { assert (0 <= a) by (apply suml_nonneg; intros; apply area_nonneg). lra. }
  apply (Rmult_le_reg_r a); auto.
  replace ((u * px B + v * py B) * a) with (u * sx + v * sy) by (rewrite EX, EY; ring). unfold sx, sy, a.
  rewrite <- !suml_scal, <- suml_plus. apply suml_le_in. intros t Ht.
  apply inner_in in Ht as [T1 T2]. unfold tri_ok in H. rewrite Forall_forall in H. destruct (H t T1) as [L0 [L1 L2]].
  pose proof (HV (t0 t) L0 (T2 (t0 t) ltac:(unfold corners; cbn; auto))) as V0.
  pose proof (HV (t1 t) L1 (T2 (t1 t) ltac:(unfold corners; cbn; auto))) as V1.
  pose proof (HV (t2 t) L2 (T2 (t2 t) ltac:(unfold corners; cbn; auto))) as V2.
  unfold centroid. rewrite px_P, py_P. pose proof (area_nonneg m t) as AN.
  set (x0 := px (pos m (t0 t))) in *. set (x1 := px (pos m (t1 t))) in *. set (x2 := px (pos m (t2 t))) in *.
  set (y0 := py (pos m (t0 t))) in *. set (y1 := py (pos m (t1 t))) in *. set (y2 := py (pos m (t2 t))) in *.
  replace (u * (tri_area m t * ((x0 + x1 + x2) / 3)) + v * (tri_area m t * ((y0 + y1 + y2) / 3))) with (tri_area m t * (((u * x0 + v * y0) + (u * x1 + v * y1) + (u * x2 + v * y2)) / 3)) by field.
  rewrite (Rmult_comm w). apply Rmult_le_compat_l; auto. lra.
Qed.
(** parallel axes *)
Lemma parallel_axes : forall m p g B c k, tri_ok m -> getInnermostPolygon ROps A m p = Ok g -> computeBarycenter ROps A m p = Ok B ->
  exists IB Ic M, computeInertiaMoment ROps A m p B k = Ok IB /\ computeInertiaMoment ROps A m p c k = Ok Ic /\ computeMass ROps A m p k = Ok M /\
    Ic = IB + M * (dist B c * dist B c).
Proof.
  intros m p g B c k H E EB. rewrite !(inertia_val m p g) by auto. rewrite (mass_val m p g) by auto.
  do 3 eexists. split; [reflexivity|]. split; [reflexivity|]. split; [reflexivity|].
  destruct (bary_val m p g H E) as [Z N]. set (F := inner_tris m g) in *. set (a := suml F (tri_area m)) in *.
  destruct (Req_dec a 0) as [Ha|Ha]; [destruct (Z Ha) as [s X]; rewrite X in EB; discriminate EB|]. rewrite (N Ha) in EB.
  set (sx := suml F (fun t => tri_area m t * px (centroid m t))) in *. set (sy := suml F (fun t => tri_area m t * py (centroid m t))) in *.
  injection EB as EB.
  assert (EX : sx = px B * a) by (rewrite <- EB, px_P; field; auto). assert (EY : sy = py B * a) by (rewrite <- EB, py_P; field; auto).
  rewrite dist_sq. set (S := suml F (fun t => tri_area m t * (px (centroid m t) * px (centroid m t) + py (centroid m t) * py (centroid m t)))).
  assert (G : forall q, suml F (fun t => tri_area m t * (dist (centroid m t) q * dist (centroid m t) q)) = S + (- 2 * px q) * sx + (- 2 * py q) * sy + (px q * px q + py q * py q) * a).
  { intros q. unfold S, sx, sy, a. rewrite <- !suml_scal, <- !suml_plus. apply suml_ext. intros t _. rewrite dist_sq. ring. }
  rewrite !G, EX, EY. match goal with |- @eq _ ?x ?y => change (@eq R x y) end. ring.
Qed.

(** numbering *)
Lemma perm3 : forall (a b c a' b' c' : pt), Permutation [a; b; c] [a'; b'; c'] ->
  (a' = a /\ b' = b /\ c' = c) \/ (a' = a /\ b' = c /\ c' = b) \/ (a' = b /\ b' = a /\ c' = c) \/
  (a' = b /\ b' = c /\ c' = a) \/ (a' = c /\ b' = a /\ c' = b) \/ (a' = c /\ b' = b /\ c' = a).
Proof.
  intros a b c a' b' c' H.
  assert (T : forall x y u v : pt, Permutation [x; y] [u; v] -> (u = x /\ v = y) \/ (u = y /\ v = x)).
  { intros x y u v K. apply Permutation_length_2_inv in K. destruct K as [K|K]; injection K as -> ->; auto. }
  assert (I : In a' [a; b; c]) by (apply (Permutation_in a' (Permutation_sym H)); left; auto).
  destruct I as [<-|[<-|[<-|[]]]].
  - apply Permutation_cons_inv in H. apply T in H. tauto.
  - assert (K : Permutation (b :: [a; c]) (b :: [b'; c'])) by (eapply Permutation_trans; [apply perm_swap|exact H]).
    apply Permutation_cons_inv in K. apply T in K. tauto.
  - assert (K : Permutation (c :: [a; b]) (c :: [b'; c'])).
    { eapply Permutation_trans; [|exact H]. apply (Permutation_cons_append [a; b] c). }
    apply Permutation_cons_inv in K. apply T in K. tauto.
Qed.
Definition same_corners m m' (t t' : tri) : Prop := Permutation (map (pos m) (corners t)) (map (pos m') (corners t')).
Lemma turn_flip1 : forall a b c, turn a c b = - turn a b c.
Proof. intros. unfold turn. ring. Qed.
Lemma turn_flip2 : forall a b c, turn b a c = - turn a b c.
Proof. intros. unfold turn. ring. Qed.
Lemma turn_cyc : forall a b c, turn b c a = turn a b c.
Proof. intros. unfold turn. ring. Qed.
Lemma same_area : forall m m' t t', same_corners m m' t t' -> tri_area m t = tri_area m' t'.
Proof.
  intros m m' t t' H. unfold same_corners, corners in H. cbn [map] in H. apply perm3 in H. unfold tri_area, tri_turn.
  assert (E : forall x y : R, x = y \/ x = - y -> Rabs x / 2 = Rabs y / 2) by (intros x y [->| ->]; rewrite ?Rabs_Ropp; auto).
  apply E. destruct H as [[-> [-> ->]]|[[-> [-> ->]]|[[-> [-> ->]]|[[-> [-> ->]]|[[-> [-> ->]]|[-> [-> ->]]]]]]]; unfold turn; ((left; ring) || (right; ring)).
Qed.
Lemma same_centroid : forall m m' t t', same_corners m m' t t' -> centroid m t = centroid m' t'.
Proof.
  intros m m' t t' H. unfold same_corners, corners in H. cbn [map] in H. apply perm3 in H. unfold centroid.
  destruct H as [[-> [-> ->]]|[[-> [-> ->]]|[[-> [-> ->]]|[[-> [-> ->]]|[[-> [-> ->]]|[-> [-> ->]]]]]]]; apply pt_ext; rewrite ?px_P, ?py_P; field.
Qed.
Lemma same_inside : forall m m' g t t', same_corners m m' t t' ->
  forallb (fun v => poly_contains ROps g (pos m v)) (corners t) = forallb (fun v => poly_contains ROps g (pos m' v)) (corners t').
Proof.
  intros m m' g t t' H. unfold same_corners, corners in H. cbn [map] in H. apply perm3 in H. unfold corners. cbn [forallb].
  destruct H as [[-> [-> ->]]|[[-> [-> ->]]|[[-> [-> ->]]|[[-> [-> ->]]|[[-> [-> ->]]|[-> [-> ->]]]]]]];
  destruct (poly_contains ROps g (pos m (t0 t))), (poly_contains ROps g (pos m (t1 t))), (poly_contains ROps g (pos m (t2 t))); reflexivity.
Qed.
Lemma suml_perm : forall X (l l' : list X) f, Permutation l l' -> suml l f = suml l' f.
Proof. intros X l l' f H. induction H; rewrite ?suml_cons; auto; try lra. Qed.
Lemma perm_filter : forall X (f : X -> bool) l l', Permutation l l' -> Permutation (filter f l) (filter f l').
Proof.
  intros X f l l' H. induction H; cbn [filter]; auto.
  - destruct (f x); auto.
  - destruct (f x), (f y); auto. apply perm_swap.
  - eapply Permutation_trans; eauto.
Qed.
Lemma same_sums : forall m m' g (f f' : tri -> R), same_triangles m m' -> (forall t t', same_corners m m' t t' -> f t = f' t') ->
  suml (inner_tris m g) f = suml (inner_tris m' g) f'.
Proof.
  intros m m' g f f' [ts [Hp HF]] Hf. transitivity (suml (filter (fun t => forallb (fun v => poly_contains ROps g (pos m' v)) (corners t)) ts) f').
  - unfold inner_tris. clear Hp. induction HF as [|t t' l l' Ht HF IH]; [reflexivity|]. rewrite !suml_filter_step.
    rewrite (same_inside m m' g t t' Ht), IH, (Hf t t' Ht). reflexivity.
  - apply suml_perm. apply perm_filter. auto.
Qed.
Lemma same_results : forall m m' p c k, tri_ok m -> tri_ok m' -> same_triangles m m' -> m_center m = m_center m' -> m_depth m = m_depth m' ->
  polygons (m_drawing m) = polygons (m_drawing m') ->
  computeAreaIntegral ROps A m p = computeAreaIntegral ROps A m' p /\ computeMass ROps A m p k = computeMass ROps A m' p k /\
  (forall B, computeBarycenter ROps A m p = Ok B -> computeBarycenter ROps A m' p = Ok B) /\
  computeInertiaMoment ROps A m p c k = computeInertiaMoment ROps A m' p c k.
Proof.
  intros m m' p c k H H' S C D Q.
  assert (G : getInnermostPolygon ROps A m p = getInnermostPolygon ROps A m' p) by (unfold getInnermostPolygon; rewrite C, Q; reflexivity).
  destruct (getInnermostPolygon ROps A m p) as [g|s|s|s] eqn:E;
    [|unfold computeAreaIntegral, computeMass, computeAreaIntegral, computeBarycenter, computeInertiaMoment; rewrite E, <- G; cbn [bind]; repeat split; auto; discriminate ..].
  symmetry in G. rewrite !(area_val m p g), !(area_val m' p g) by auto.
  rewrite !(mass_val m p g), !(mass_val m' p g), !(inertia_val m p g), !(inertia_val m' p g) by auto.
  assert (EA : suml (inner_tris m g) (tri_area m) = suml (inner_tris m' g) (tri_area m')) by (apply same_sums; auto; intros; apply same_area; auto).
  split; [rewrite EA; auto|]. split; [rewrite EA, D; auto|]. split.
  - intros B EB. destruct (bary_val m p g H E) as [Z N]. destruct (bary_val m' p g H' G) as [Z' N'].
    destruct (Req_dec (suml (inner_tris m g) (tri_area m)) 0) as [Ha|Ha]; [destruct (Z Ha) as [s X]; rewrite X in EB; discriminate EB|].
    rewrite (N Ha) in EB. rewrite <- EB. rewrite EA in Ha. rewrite (N' Ha). rewrite EA. f_equal.
    rewrite (same_sums m m' g (fun t => tri_area m t * px (centroid m t)) (fun t => tri_area m' t * px (centroid m' t))); auto.
    + rewrite (same_sums m m' g (fun t => tri_area m t * py (centroid m t)) (fun t => tri_area m' t * py (centroid m' t))); auto.
      intros t t' K. rewrite (same_area m m' t t' K), (same_centroid m m' t t' K). auto.
    + intros t t' K. rewrite (same_area m m' t t' K), (same_centroid m m' t t' K). auto.
  - rewrite D. f_equal. f_equal. apply same_sums; auto. intros t t' K. rewrite (same_area m m' t t' K), (same_centroid m m' t t' K). auto.
Qed.

(** translation *)
Lemma shift_dist : forall v p q, dist (shift v p) (shift v q) = dist p q.
Proof. intros v p q. unfold dist. rewrite !shift_x, !shift_y. f_equal. ring. Qed.
Lemma poly_neqb_shift : forall v g h, poly_neqb ROps (map (shift v) g) (map (shift v) h) = poly_neqb ROps g h.
Proof.
  intros v g h. unfold poly_neqb, poly_eqb. rewrite !map_length. destruct (negb _); auto. f_equal.
  revert h. induction g as [|x g IH]; intros [|y h]; cbn [map poly_eqb_loop]; auto. unfold vec_neqb. rewrite !vec_eqb_R, shift_dist, IH. reflexivity.
Qed.
Lemma contains_poly_shift : forall v g h, poly_contains_poly ROps (map (shift v) g) (map (shift v) h) = poly_contains_poly ROps g h.
Proof. intros v g h. unfold poly_contains_poly. induction h as [|x h IH]; cbn [map forallb]; auto. rewrite contains_shift, IH. auto. Qed.
Lemma is_magnet_shift : forall v g l, is_magnet ROps (map (shift v) g) (map (map (shift v)) l) = is_magnet ROps g l.
Proof. intros v g l. induction l as [|h l IH]; cbn [map is_magnet]; auto. rewrite poly_neqb_shift, contains_poly_shift, IH. auto. Qed.
Lemma first_minimal_shift : forall v all l, first_minimal ROps (map (map (shift v)) all) (map (map (shift v)) l) = (g <- first_minimal ROps all l ;; Ok (map (shift v) g)).
Proof.
  intros v all l. induction l as [|h l IH]; cbn [map first_minimal]; auto. rewrite is_magnet_shift. destruct (is_magnet ROps h all) as [b|s|s|s]; auto. cbn [bind].
  destruct b; auto.
Qed.
Lemma filter_map_ : forall X Y (f : X -> Y) (h : Y -> bool) l, filter h (map f l) = map f (filter (fun x => h (f x)) l).
Proof. intros X Y f h l. induction l as [|x l IH]; auto. cbn [map filter]. rewrite IH. destruct (h (f x)); auto. Qed.
Lemma innermost_shift : forall v m p, getInnermostPolygon ROps A (moved_mesh v m) (shift v p) = (g <- getInnermostPolygon ROps A m p ;; Ok (map (shift v) g)).
Proof.
  intros v m p. unfold getInnermostPolygon. cbn [moved_mesh m_center m_drawing moved polygons].
  assert (E : vminus ROps (shift v p) (m_center m) = shift v (vminus ROps p (m_center m))).
  { apply pt_ext; rewrite ?shift_x, ?shift_y; [change (px (shift v p) - px (m_center m) = px p - px (m_center m) + px v)|change (py (shift v p) - py (m_center m) = py p - py (m_center m) + py v)]; rewrite ?shift_x, ?shift_y; ring. }
  rewrite E, filter_map_. rewrite (filter_ext _ (fun g => poly_contains ROps g (vminus ROps p (m_center m)))) by (intros g; apply contains_shift).
  set (F := filter _ _). destruct F as [|g [|g' F']]; auto. apply (first_minimal_shift v (g :: g' :: F') (g :: g' :: F')).
Qed.
Lemma moved_pos : forall v m i, (i < length (m_points m))%nat -> pos (moved_mesh v m) i = shift v (pos m i).
Proof. intros v m i H. unfold pos. cbn [moved_mesh m_points]. rewrite (nth_indep _ org (shift v org)) by (rewrite map_length; auto). apply map_nth. Qed.
Lemma moved_ok : forall v m, tri_ok m -> tri_ok (moved_mesh v m).
Proof. intros v m H. unfold tri_ok in *. cbn [moved_mesh m_points m_tris]. rewrite map_length. auto. Qed.
Lemma moved_inner : forall v m g, tri_ok m -> inner_tris (moved_mesh v m) (map (shift v) g) = inner_tris m g.
Proof.
  intros v m g H. unfold inner_tris. change (m_tris (moved_mesh v m)) with (m_tris m). unfold tri_ok in H. induction (m_tris m) as [|t l IH]; auto.
  inversion H as [|? ? [H0 [H1 H2]] Hl]; subst. cbn [filter]. rewrite IH by auto. unfold corners. cbn [forallb]. rewrite !moved_pos, !contains_shift by auto. reflexivity.
Qed.
Lemma moved_area : forall v m t, tri_in (length (m_points m)) t -> tri_area (moved_mesh v m) t = tri_area m t.
Proof. intros v m t [H0 [H1 H2]]. unfold tri_area, tri_turn. rewrite !moved_pos by auto. unfold turn. rewrite !shift_x, !shift_y. do 2 f_equal. ring. Qed.
Lemma moved_centroid : forall v m t, tri_in (length (m_points m)) t -> centroid (moved_mesh v m) t = shift v (centroid m t).
Proof. intros v m t [H0 [H1 H2]]. unfold centroid. rewrite !moved_pos by auto. rewrite !shift_x, !shift_y. apply pt_ext; rewrite ?shift_x, ?shift_y, ?px_P, ?py_P; field. Qed.
Lemma moved_results : forall v m p c k, tri_ok m ->
  computeAreaIntegral ROps A (moved_mesh v m) (shift v p) = computeAreaIntegral ROps A m p /\
  computeMass ROps A (moved_mesh v m) (shift v p) k = computeMass ROps A m p k /\
  (forall B, computeBarycenter ROps A m p = Ok B -> computeBarycenter ROps A (moved_mesh v m) (shift v p) = Ok (shift v B)) /\
  computeInertiaMoment ROps A (moved_mesh v m) (shift v p) (shift v c) k = computeInertiaMoment ROps A m p c k.
Proof.
  intros v m p c k H. pose proof (innermost_shift v m p) as G. pose proof (moved_ok v m H) as H'.
  destruct (getInnermostPolygon ROps A m p) as [g|s|s|s] eqn:E; cbn [bind] in G;
    [|unfold computeAreaIntegral, computeMass, computeAreaIntegral, computeBarycenter, computeInertiaMoment; rewrite E, G; cbn [bind]; repeat split; auto; discriminate ..].
  rewrite !(area_val m p g), !(area_val _ _ _ H' G) by auto.
  rewrite !(mass_val m p g), !(mass_val _ _ _ k H' G), !(inertia_val m p g), !(inertia_val _ _ _ _ k H' G) by auto.
  assert (IN : forall t, In t (inner_tris m g) -> tri_in (length (m_points m)) t).
  { intros t Ht. apply inner_in in Ht as [Ht _]. unfold tri_ok in H. rewrite Forall_forall in H. auto. }
  assert (EA : suml (inner_tris (moved_mesh v m) (map (shift v) g)) (tri_area (moved_mesh v m)) = suml (inner_tris m g) (tri_area m)).
  { rewrite moved_inner by auto. apply suml_ext. intros t Ht. apply moved_area. auto. }
  change (m_depth (moved_mesh v m)) with (m_depth m).
  split; [rewrite EA; auto|]. split; [rewrite EA; auto|]. split.
  - intros B EB. destruct (bary_val m p g H E) as [Z N]. destruct (bary_val _ _ _ H' G) as [Z' N'].
    set (a := suml (inner_tris m g) (tri_area m)) in *.
    destruct (Req_dec a 0) as [Ha|Ha]; [destruct (Z Ha) as [s X]; rewrite X in EB; discriminate EB|].
    rewrite (N Ha) in EB. 
    set (sx := suml (inner_tris m g) (fun t => tri_area m t * px (centroid m t))) in *. set (sy := suml (inner_tris m g) (fun t => tri_area m t * py (centroid m t))) in *.
    injection EB as <-. rewrite N' by (rewrite EA; auto). rewrite EA. f_equal.
    assert (X : suml (inner_tris (moved_mesh v m) (map (shift v) g)) (fun t => tri_area (moved_mesh v m) t * px (centroid (moved_mesh v m) t)) = sx + px v * a).
    { rewrite moved_inner by auto. unfold sx, a. rewrite <- suml_scal, <- suml_plus. apply suml_ext. intros t Ht. rewrite moved_area, moved_centroid, shift_x by auto. ring. }
    assert (Y : suml (inner_tris (moved_mesh v m) (map (shift v) g)) (fun t => tri_area (moved_mesh v m) t * py (centroid (moved_mesh v m) t)) = sy + py v * a).
    { rewrite moved_inner by auto. unfold sy, a. rewrite <- suml_scal, <- suml_plus. apply suml_ext. intros t Ht. rewrite moved_area, moved_centroid, shift_y by auto. ring. }
    rewrite X, Y. apply pt_ext; rewrite ?shift_x, ?shift_y, ?px_P, ?py_P; field; auto.
  - f_equal. f_equal. rewrite moved_inner by auto. apply suml_ext. intros t Ht. rewrite moved_area, moved_centroid, shift_dist by auto. auto.
Qed.
End Integrals.
