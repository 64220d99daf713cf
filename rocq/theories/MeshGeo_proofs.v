(** Gradient and curl, Kelvin transform, area integrals and bounding box in exact arithmetic. *)
From Coq Require Import String.
From Coq Require Import List Arith ZArith NArith Bool Lia Reals Lra Permutation.
From Verif Require Import Base SumR AlgebraModel AlgebraSpec Coo_proofs Csr_proofs Mult_proofs GeometryModel GeometrySpec DrawingModel DrawingSpec Geometry_proofs MeshModel MeshSpec Adjacency_proofs Fem_proofs.
Import ListNotations.
Local Open Scope R_scope.

(** ** Gradient *)
Lemma map_res_ok : forall X Y (f : X -> res Y) (Q : X -> Y -> Prop) l, (forall x, In x l -> exists y, f x = Ok y /\ Q x y) ->
  exists ys, map_res f l = Ok ys /\ Forall2 Q l ys.
Proof.
  intros X Y f Q l. induction l as [|x l IH]; intros H; [exists []; split; constructor|]. cbn [map_res].
  destruct (H x) as [y [-> Hy]]; [cbn; auto|]. cbn [bind]. destruct IH as [ys [-> Hys]]; [intros; apply H; cbn; auto|]. cbn [bind].
  exists (y :: ys). split; constructor; auto.
Qed.
Lemma map_res_F2 : forall X Y (f : X -> res Y) l ys, map_res f l = Ok ys -> Forall2 (fun x y => f x = Ok y) l ys.
Proof.
  intros X Y f l. induction l as [|x l IH]; intros ys H; cbn [map_res] in H; [inversion H; constructor|].
  destruct (f x) as [y|s|s|s] eqn:E; cbn [bind] in H; try discriminate H.
  destruct (map_res f l) as [ys'|s|s|s]; cbn [bind] in H; try discriminate H. inversion H; subst. constructor; auto.
Qed.
Lemma tri_points_ok : forall A (m : mesh ROps A) t, tri_in (length (m_points m)) t ->
  tri_points ROps (m_points m) t = Ok (pos m (t0 t), pos m (t1 t), pos m (t2 t)).
Proof. intros A m t [H1 [H2 H3]]. unfold tri_points. rewrite !get_pos by auto. reflexivity. Qed.

Section Grad.
Context {A : Type}.
Variable m : mesh ROps A.
Notation n := (length (m_points m)).
Lemma elem_grad_R : forall (x : list R) t, length x = n -> tri_in n t -> tri_turn m t <> 0 ->
  exists g, elem_grad ROps (m_points m) x t = Ok (px g, py g) /\ gradient_of m (vget x) t g.
Proof.
  intros x t Lx Hin HD. pose proof Hin as [H1 [H2 H3]]. unfold elem_grad. rewrite tri_points_ok by auto. cbn [bind].
  rewrite !(get_lt _ x _ 0) by lia. cbn [bind]. fold (vget x (t0 t)) (vget x (t1 t)) (vget x (t2 t)).
  set (x0 := px (pos m (t0 t))). set (y0 := py (pos m (t0 t))). set (x1 := px (pos m (t1 t))). set (y1 := py (pos m (t1 t))).
  set (x2 := px (pos m (t2 t))). set (y2 := py (pos m (t2 t))).
  assert (HC : (x1 - x0) * (y2 - y0) - (y1 - y0) * (x2 - x0) <> 0).
  { intros E. apply HD. unfold tri_turn, turn. fold x0 y0 x1 y1 x2 y2. rewrite <- E. ring. }
  change (sub ROps) with Rminus. change (mul ROps) with Rmult. change (@vx ROps) with px. change (@vy ROps) with py.
  fold x0 y0 x1 y1 x2 y2.
  rewrite !Rdiv_ok by exact HC. cbn [bind].
  eexists (P _ _). rewrite px_P, py_P. split; [reflexivity|]. unfold gradient_of. rewrite px_P, py_P. fold x0 y0 x1 y1 x2 y2.
  change (opp ROps) with Ropp. split; field; exact HC.
Qed.
Lemma computeGrad_ok : forall x : list R, Forall (tri_in n) (m_tris m) -> proper m -> length x = n ->
  exists gs, computeGrad ROps A m x = Ok gs /\ Forall2 (gradient_of m (vget x)) (m_tris m) gs.
Proof.
  intros x W Hp Lx. unfold computeGrad. apply map_res_ok. intros t Ht. unfold proper in Hp. rewrite Forall_forall in *.
  destruct (elem_grad_R x t Lx (W _ Ht) (Hp _ Ht)) as [g [-> G]]. cbn [bind]. exists g. split; auto. f_equal. apply pt_ext; reflexivity.
Qed.
Lemma computeCurl_ok : forall x : list R, Forall (tri_in n) (m_tris m) -> proper m -> length x = n ->
  exists gs, computeGrad ROps A m x = Ok gs /\ computeCurl ROps A m x = Ok (map quarter gs).
Proof.
  intros x W Hp Lx. unfold computeGrad, computeCurl. unfold proper in Hp. rewrite Forall_forall in W, Hp.
  revert W Hp. generalize (m_tris m) as l. induction l as [|t l IH]; intros W Hp; [exists []; auto|]. cbn [map_res].
  destruct (elem_grad_R x t Lx (W _ ltac:(cbn; auto)) (Hp _ ltac:(cbn; auto))) as [g [-> G]]. cbn [bind].
  destruct IH as [gs [E1 E2]]; [intros; apply W; cbn; auto|intros; apply Hp; cbn; auto|].
  change (T ROps) with R in *. rewrite E1, E2. cbn [bind]. eexists. split; [reflexivity|]. reflexivity.
Qed.
(** uniqueness: the gradient of sampled affine data *)
Lemma gradient_corner : forall x t g u v, gradient_of m x t g -> In u (corners t) -> In v (corners t) ->
  x v - x u = px g * (px (pos m v) - px (pos m u)) + py g * (py (pos m v) - py (pos m u)).
Proof.
  intros x t g u v [H1 H2] Hu Hv. unfold corners in *. destruct Hu as [<-|[<-|[<-|[]]]], Hv as [<-|[<-|[<-|[]]]]; lra.
Qed.
Lemma affine_gradient : forall a b c t g, tri_turn m t <> 0 -> gradient_of m (fun v => a + b * px (pos m v) + c * py (pos m v)) t g -> g = P b c.
Proof.
  intros a b c t g HD [H1 H2]. 
  set (x0 := px (pos m (t0 t))) in *. set (y0 := py (pos m (t0 t))) in *. set (x1 := px (pos m (t1 t))) in *. set (y1 := py (pos m (t1 t))) in *.
  set (x2 := px (pos m (t2 t))) in *. set (y2 := py (pos m (t2 t))) in *.
  assert (E1 : (b - px g) * (x1 - x0) + (c - py g) * (y1 - y0) = 0) by lra.
  assert (E2 : (b - px g) * (x2 - x0) + (c - py g) * (y2 - y0) = 0) by lra.
  assert (HC : (x1 - x0) * (y2 - y0) - (x2 - x0) * (y1 - y0) <> 0) by exact HD.
  assert (F1 : (b - px g) * ((x1 - x0) * (y2 - y0) - (x2 - x0) * (y1 - y0)) = 0).
  { replace (_ * _) with (((b - px g) * (x1 - x0) + (c - py g) * (y1 - y0)) * (y2 - y0) - ((b - px g) * (x2 - x0) + (c - py g) * (y2 - y0)) * (y1 - y0)) by ring. rewrite E1, E2. ring. }
  assert (F2 : (c - py g) * ((x1 - x0) * (y2 - y0) - (x2 - x0) * (y1 - y0)) = 0).
  { replace (_ * _) with (((b - px g) * (x2 - x0) + (c - py g) * (y2 - y0)) * (x1 - x0) - ((b - px g) * (x1 - x0) + (c - py g) * (y1 - y0)) * (x2 - x0)) by ring. rewrite E1, E2. ring. }
  apply Rmult_integral in F1. apply Rmult_integral in F2. apply pt_ext; rewrite ?px_P, ?py_P; [destruct F1|destruct F2]; try contradiction; lra.
Qed.
End Grad.

(** ** Kelvin transform *)
Lemma scaled_x : forall k p, px (scaled k p) = k * px p.
Proof. reflexivity. Qed.
Lemma scaled_y : forall k p, py (scaled k p) = k * py p.
Proof. reflexivity. Qed.
Lemma dist_org_sq : forall p, dist p org * dist p org = px p * px p + py p * py p.
Proof. intros p. rewrite dist_sq. unfold org. rewrite px_P, py_P. ring. Qed.
Lemma dist_scaled : forall k p, 0 <= k -> dist (scaled k p) org = k * dist p org.
Proof.
  intros k p H. unfold dist. rewrite scaled_x, scaled_y. unfold org. rewrite px_P, py_P.
  replace ((k * px p - 0) * (k * px p - 0) + (k * py p - 0) * (k * py p - 0)) with ((k * k) * ((px p - 0) * (px p - 0) + (py p - 0) * (py p - 0))) by ring.
  rewrite sqrt_mult; [rewrite sqrt_square by auto; reflexivity| |].
  - apply sq_nonneg.
  - pose proof (sq_nonneg (px p - 0)). pose proof (sq_nonneg (py p - 0)). lra.
Qed.
Lemma org_pos : forall p, p <> org -> 0 < dist p org.
Proof. intros p H. destruct (Rle_lt_or_eq_dec _ _ (dist_nonneg p org)) as [L|E]; auto. exfalso. apply H. apply dist_zero. auto. Qed.
Lemma kelvin_point_R : forall r c v, kelvin_point ROps r c v =
  if Req_EM_T (px v * px v + py v * py v) 0 then NonFin "division by zero"
  else if Rlt_dec (dist v c) (r / 100) then (if Req_EM_T (dist v c) 0 then NonFin "division by zero" else Ok (scaled (r * 100 / dist v c) v))
  else Ok (scaled (r * r / (px v * px v + py v * py v)) v).
Proof.
  intros r c v. unfold kelvin_point. rewrite Rdiv_ok by (cbn; lra). cbn [bind].
  change (mul ROps) with Rmult. change (add ROps) with Rplus. change (@vx ROps v) with (px v). change (@vy ROps v) with (py v).
  change (div ROps (r * r) (px v * px v + py v * py v)) with (Rdivr (r * r) (px v * px v + py v * py v)). unfold Rdivr.
  destruct (Req_EM_T (px v * px v + py v * py v) 0) as [E|E]; [reflexivity|]. cbn [bind]. rewrite distance_R. cbn [bind].
  change (ltb ROps) with Rltb. unfold Rltb. change (ofZ ROps 100) with 100. destruct (Rlt_dec (dist v c) (r / 100)).
  - change (div ROps (r * 100) (dist v c)) with (Rdivr (r * 100) (dist v c)). unfold Rdivr. destruct (Req_EM_T (dist v c) 0); [reflexivity|]. cbn [bind]. f_equal.
    apply pt_ext; unfold scaled, vmul; rewrite ?px_P, ?py_P; cbn; unfold px, py; ring.
  - f_equal. apply pt_ext; unfold scaled, vmul; rewrite ?px_P, ?py_P; cbn; unfold px, py; ring.
Qed.
Lemma sq_org : forall p, p <> org -> px p * px p + py p * py p <> 0.
Proof. intros p H E. apply H. rewrite <- dist_org_sq in E. apply dist_zero. apply Rmult_integral in E. destruct E; auto. Qed.
Lemma kelvin_outer : forall r c v, 0 < r -> v <> org -> r / 100 <= dist v c ->
  exists k, 0 < k /\ kelvin_point ROps r c v = Ok (scaled k v) /\ dist (scaled k v) org * dist v org = r * r.
Proof.
  intros r c v Hr Hv Hd. rewrite kelvin_point_R. pose proof (sq_org v Hv) as N. destruct (Req_EM_T _ 0) as [E|_]; [contradiction|].
  destruct (Rlt_dec (dist v c) (r / 100)); [lra|].
  pose proof (org_pos v Hv) as P0. pose proof (dist_org_sq v) as E. rewrite <- E in *.
  exists (r * r / (dist v org * dist v org)).
  assert (K : 0 < r * r / (dist v org * dist v org)) by (apply Rdiv_lt_0_compat; apply Rmult_lt_0_compat; auto).
  split; auto. split; auto. rewrite dist_scaled by lra. field. lra.
Qed.
Lemma kelvin_core : forall r v, 0 < r -> v <> org -> dist v org < r / 100 ->
  exists k, 0 < k /\ kelvin_point ROps r org v = Ok (scaled k v) /\ dist (scaled k v) org = 100 * r.
Proof.
  intros r v Hr Hv Hd. rewrite kelvin_point_R. pose proof (sq_org v Hv) as N. destruct (Req_EM_T _ 0) as [E|_]; [contradiction|].
  destruct (Rlt_dec (dist v org) (r / 100)); [|contradiction]. pose proof (org_pos v Hv) as P0.
  destruct (Req_EM_T (dist v org) 0); [lra|]. exists (r * 100 / dist v org).
  assert (K : 0 < r * 100 / dist v org) by (apply Rdiv_lt_0_compat; lra). split; auto. split; auto. rewrite dist_scaled by lra. field. lra.
Qed.
Lemma scaled_one : forall p, scaled 1 p = p.
Proof. intros p. apply pt_ext; rewrite ?scaled_x, ?scaled_y; ring. Qed.
Lemma kelvin_fixed : forall r v, 0 < r -> dist v org = r -> kelvin_point ROps r org v = Ok v.
Proof.
  intros r v Hr Hd. assert (Hv : v <> org) by (intros ->; rewrite dist_self in Hd; lra).
  destruct (kelvin_outer r org v Hr Hv ltac:(lra)) as [k [K [E Q]]]. rewrite E. f_equal.
  rewrite dist_scaled, Hd in Q by lra. assert (k = 1). { apply (Rmult_eq_reg_r (r * r)); [lra|]. assert (0 < r * r) by (apply Rmult_lt_0_compat; auto). lra. }
  subst. apply scaled_one.
Qed.
Lemma kelvin_involution : forall r v, 0 < r -> r / 100 <= dist v org <= 100 * r ->
  exists w, kelvin_point ROps r org v = Ok w /\ kelvin_point ROps r org w = Ok v.
Proof.
  intros r v Hr [H1 H2]. assert (Hv : v <> org) by (intros ->; rewrite dist_self in H1; lra).
  destruct (kelvin_outer r org v Hr Hv H1) as [k [K [E Q]]]. exists (scaled k v). split; auto.
  pose proof (org_pos v Hv) as P0. rewrite dist_scaled in Q by lra.
  assert (Dw : dist (scaled k v) org = r * r / dist v org). { rewrite dist_scaled by lra. rewrite <- Q. field. lra. }
  assert (Hw : r / 100 <= dist (scaled k v) org).
  { rewrite Dw. apply Rle_trans with (r * r / (100 * r)).
    - right. field. lra.
    - unfold Rdiv. apply Rmult_le_compat_l; [apply Rmult_le_pos; lra|]. apply Rinv_le_contravar; auto. }
  assert (Nw : scaled k v <> org) by (intros E0; rewrite E0, dist_self in Hw; lra).
  destruct (kelvin_outer r org (scaled k v) Hr Nw Hw) as [k' [K' [E' Q']]]. rewrite E'. f_equal.
  assert (k' * k = 1).
  { rewrite !dist_scaled in Q' by lra. apply (Rmult_eq_reg_r (k * dist v org * dist v org)).
    - rewrite Rmult_1_l. transitivity (r * r); [rewrite <- Q'; ring|rewrite <- Q; ring].
    - rewrite Q. assert (0 < r * r) by (apply Rmult_lt_0_compat; auto). lra. }
  apply pt_ext; rewrite !scaled_x || rewrite !scaled_y; rewrite <- Rmult_assoc, H; ring.
Qed.
Lemma kelvin_origin : forall r c, is_nonfin (kelvin_point ROps r c org).
Proof. intros r c. rewrite kelvin_point_R. unfold org. rewrite px_P, py_P. destruct (Req_EM_T (0 * 0 + 0 * 0) 0); [eexists; reflexivity|]. exfalso. apply n. ring. Qed.

Section KelvinMesh.
Context {A : Type}.
Implicit Types m : mesh ROps A.
Definition kmove (r : R) (c : pt) (i : nat) (l : list pt) (marks : list bool) : res (list pt) :=
  b <- get marks i ;; if b : bool then Ok l else v <- get l i ;; w <- kelvin_point ROps r c v ;; set l i w.
Lemma kelvin_loop : forall r c marks (pts : list pt) k a l, (a + k = length pts)%nat -> length l = length pts -> (length pts <= length marks)%nat ->
  (forall i, (a <= i)%nat -> nth i l org = nth i pts org) ->
  (forall i, (a <= i < length pts)%nat -> nth i marks false = false -> exists w, kelvin_point ROps r c (nth i pts org) = Ok w) ->
  exists l', forM_from k a (fun i l => kmove r c i l marks) l = Ok l' /\ length l' = length pts /\
    forall i, (i < length pts)%nat -> if (Nat.leb a i && negb (nth i marks false))%bool then kelvin_point ROps r c (nth i pts org) = Ok (nth i l' org) else nth i l' org = nth i l org.
Proof.
  intros r c marks pts k. induction k as [|k IH]; intros a l Ha Hl Hm Hs Hk; cbn [forM_from].
  - exists l. repeat split; auto. intros i Hi. destruct (Nat.leb_spec a i); [lia|]. reflexivity.
  - unfold kmove at 1. rewrite (get_lt _ marks a false) by lia. cbn [bind]. destruct (nth a marks false) eqn:M.
    + cbn [bind]. destruct (IH (S a) l) as [l' [E [L V]]]; auto; [lia|intros; apply Hs; lia|intros i Hi; apply Hk; lia|].
      exists l'. split; auto. split; auto. intros i Hi. specialize (V i Hi). destruct (Nat.eq_dec i a) as [->|N].
      * rewrite M. rewrite andb_false_r. destruct (Nat.leb_spec (S a) a); [lia|]. exact V.
      * replace (Nat.leb a i) with (Nat.leb (S a) i); auto. destruct (Nat.leb_spec (S a) i), (Nat.leb_spec a i); auto; lia.
    + rewrite (get_lt _ l a org) by lia. cbn [bind]. rewrite Hs by lia. destruct (Hk a ltac:(lia) M) as [w Ew]. rewrite Ew. cbn [bind].
      rewrite set_lt by lia. cbn [bind].
      destruct (IH (S a) (upd l a w)) as [l' [E [L V]]]; auto; [lia|rewrite upd_length; auto| |intros i Hi; apply Hk; lia|].
      * intros i Hi. rewrite nth_upd by lia. destruct (Nat.eqb_spec i a); [lia|]. apply Hs. lia.
      * exists l'. split; auto. split; auto. intros i Hi. specialize (V i Hi). destruct (Nat.eq_dec i a) as [->|N].
        -- rewrite M, Nat.leb_refl. cbn [andb negb]. destruct (Nat.leb_spec (S a) a); [lia|]. cbn [andb] in V. rewrite nth_upd, Nat.eqb_refl in V by lia. rewrite V. auto.
        -- rewrite nth_upd in V by lia. destruct (Nat.eqb_spec i a); [contradiction|].
           replace (Nat.leb a i) with (Nat.leb (S a) i); auto. destruct (Nat.leb_spec (S a) i), (Nat.leb_spec a i); auto; lia.
Qed.
Lemma kelvin_mesh : forall m, (length (m_points m) <= length (m_marks m))%nat ->
  (forall i, (i < length (m_points m))%nat -> nth i (m_marks m) false = false -> exists w, kelvin_point ROps (m_radius m) (m_center m) (pos m i) = Ok w) ->
  exists m', kelvinTransformCentered ROps A m = Ok m' /\ m' = with_points ROps A m (m_points m') /\ length (m_points m') = length (m_points m) /\
    forall i, (i < length (m_points m))%nat ->
      (nth i (m_marks m) false = true -> pos m' i = pos m i) /\
      (nth i (m_marks m) false = false -> kelvin_point ROps (m_radius m) (m_center m) (pos m i) = Ok (pos m' i)).
Proof.
  intros m Hm Hk. unfold kelvinTransformCentered, kelvin_points.
  destruct (kelvin_loop (m_radius m) (m_center m) (m_marks m) (m_points m) (length (m_points m)) 0 (m_points m)) as [l' [E [L V]]]; auto.
  - intros i Hi Mi. apply Hk; auto. lia.
  - unfold forM_up. unfold kmove in E. rewrite E. cbn [bind]. eexists. split; [reflexivity|]. split; [reflexivity|]. split; [exact L|].
    intros i Hi. specialize (V i Hi). cbn [Nat.leb andb] in V. unfold pos at 1 3. cbn [with_points m_points].
    destruct (nth i (m_marks m) false); cbn [negb] in V; split; intros X; try discriminate X; auto.
Qed.
(** an unmarked vertex at the origin: the first one makes the run fail *)
Lemma kelvin_mesh_origin : forall m, (length (m_points m) <= length (m_marks m))%nat ->
  (exists i, (i < length (m_points m))%nat /\ nth i (m_marks m) false = false /\ pos m i = org) ->
  exists s, kelvinTransformCentered ROps A m = NonFin s.
Proof.
  intros m Hm [i [Hi [Mi Pi]]]. unfold kelvinTransformCentered, kelvin_points, forM_up.
  set (pts := m_points m) in *.
  assert (G : forall k a l, (a + k = length pts)%nat -> length l = length pts -> (a <= i)%nat -> (forall j, (a <= j)%nat -> nth j l org = nth j pts org) ->
    exists s, forM_from k a (fun i l => kmove (m_radius m) (m_center m) i l (m_marks m)) l = NonFin s).
  { induction k as [|k IH]; intros a l Ha Hl Hai Hs; [lia|]. cbn [forM_from]. unfold kmove at 1. rewrite (get_lt _ (m_marks m) a false) by lia. cbn [bind].
    destruct (nth a (m_marks m) false) eqn:M.
    - cbn [bind]. apply IH; auto; [lia| |intros; apply Hs; lia]. destruct (Nat.eq_dec a i); [congruence|lia].
    - rewrite (get_lt _ l a org) by lia. cbn [bind]. rewrite Hs by lia. destruct (Nat.eq_dec a i) as [->|N].
      + change (nth i pts org) with (pos m i). rewrite Pi. destruct (kelvin_origin (m_radius m) (m_center m)) as [s ->]. cbn [bind]. eauto.
      + rewrite kelvin_point_R. destruct (Req_EM_T _ 0); [cbn [bind]; eauto|].
        assert (ST : forall w, exists s, (a0 <- Ok w;; l' <- set l a a0;; forM_from k (S a) (fun i l => kmove (m_radius m) (m_center m) i l (m_marks m)) l') = NonFin s).
        { intros w. cbn [bind]. rewrite set_lt by lia. cbn [bind]. apply IH; [lia|rewrite upd_length; auto|lia|].
          intros j Hj. rewrite nth_upd by lia. destruct (Nat.eqb_spec j a); [lia|apply Hs; lia]. }
        destruct (Rlt_dec _ _); [destruct (Req_EM_T _ 0); [cbn [bind]; eauto|]|]; rewrite bind_assoc; apply ST. }
  destruct (G (length pts) O pts) as [s E]; auto; [lia|]. unfold kmove in E. rewrite E. exists s. reflexivity.
Qed.
End KelvinMesh.
