(** Property C83: what a mesh says about one of its elements.  Vocabulary in MeshSpec.v and GeometrySpec.v, model in MeshModel.v. *)
From Coq Require Import String.
From Coq Require Import List Arith ZArith Bool Lia Reals Lra.
From Verif Require Import Base GeometryModel GeometrySpec Geometry_proofs DrawingModel MeshModel MeshSpec Fem_proofs.
Import ListNotations.
Local Open Scope R_scope.

(** ** C83: barycentre, area and containment of one element *)
(** element e exists and has the corners a, b, c, all of them nodes of the mesh *)
Definition element {A} (m : mesh ROps A) (e a b c : nat) : Prop :=
  nth_error (m_tris m) e = Some (a, b, c) /\ (a < length (m_points m))%nat /\ (b < length (m_points m))%nat /\ (c < length (m_points m))%nat.

Lemma elem_get : forall (l : list tri) e t, nth_error l e = Some t -> get l e = Ok t.
Proof. intros l e t E. unfold get. rewrite E. reflexivity. Qed.
Theorem C83_barycentre : forall A (m : mesh ROps A) e a b c, element m e a b c ->
  exists q, getElemBarycenter ROps A m e = Ok q /\ in_open_triangle q (pos m a) (pos m b) (pos m c) /\
    3 * px q = px (pos m a) + px (pos m b) + px (pos m c) /\ 3 * py q = py (pos m a) + py (pos m b) + py (pos m c).
Proof.
  intros A m e a b c [E [Ha [Hb Hc]]]. unfold getElemBarycenter. rewrite (elem_get _ _ _ E). cbn [bind]. unfold tri_points, t0, t1, t2. cbn [fst snd].
  rewrite !get_pos by auto. cbn [bind]. unfold vdivs. change (ofZ ROps 3) with 3. rewrite !Rdiv_ok by lra. cbn [bind]. eexists. split; [reflexivity|].
  unfold in_open_triangle, vadd. cbn. unfold px, py. split; [exists (1 / 3), (1 / 3), (1 / 3); repeat split; try lra; field|split; field].
Qed.
Print Assumptions C83_barycentre.

(** the area of a triangle of nodes; the name of an element and its corners give the same number, and so does Vector::area *)
Theorem C83_area : forall A (m : mesh ROps A) e a b c, element m e a b c ->
  getDoubleOrientedArea ROps (m_points m) a b c = Ok (turn (pos m a) (pos m b) (pos m c)) /\
  getOrientedArea ROps (m_points m) a b c = Ok (turn (pos m a) (pos m b) (pos m c) / 2) /\
  getArea ROps (m_points m) a b c = Ok (Rabs (turn (pos m a) (pos m b) (pos m c)) / 2) /\
  getElemArea ROps A m e = getArea ROps (m_points m) a b c /\
  getElemArea ROps A m e = area ROps (pos m a) (pos m b) (pos m c).
Proof.
  intros A m e a b c [E [Ha [Hb Hc]]].
  assert (H1 : getOrientedArea ROps (m_points m) a b c = Ok (turn (pos m a) (pos m b) (pos m c) / 2)).
  { unfold getOrientedArea. rewrite double_pos by auto. cbn [bind]. change (one ROps) with 1. change (ofZ ROps 2) with 2. rewrite Rdiv_ok by lra. cbn [bind]. f_equal. cbn. lra. }
  assert (H2 : getArea ROps (m_points m) a b c = Ok (Rabs (turn (pos m a) (pos m b) (pos m c)) / 2)).
  { unfold getArea. rewrite H1. cbn [bind]. f_equal. change (fabs ROps ?x) with (Rabs x). unfold Rdiv. rewrite Rabs_mult, (Rabs_right (/ 2)) by lra. reflexivity. }
  assert (H3 : getElemArea ROps A m e = getArea ROps (m_points m) a b c) by (unfold getElemArea; rewrite (elem_get _ _ _ E); reflexivity).
  split; [apply double_pos; auto|]. split; auto. split; auto. split; auto. rewrite H3, H2, area_R. reflexivity.
Qed.
Print Assumptions C83_area.
(** a node inside an element splits it into three triangles with the same total area *)
Theorem C83_split : forall A (m : mesh ROps A) e a b c v, element m e a b c -> (v < length (m_points m))%nat -> in_closed_triangle (pos m v) (pos m a) (pos m b) (pos m c) ->
  exists x y z, getArea ROps (m_points m) a b v = Ok x /\ getArea ROps (m_points m) b c v = Ok y /\ getArea ROps (m_points m) c a v = Ok z /\
    getElemArea ROps A m e = Ok (x + y + z).
Proof.
  intros A m e a b c v EL Hv IN. destruct (C83_area A m e a b c EL) as [_ [_ [EA [EE _]]]]. destruct EL as [E [Ha [Hb Hc]]].
  assert (G : forall i j k, (i < length (m_points m))%nat -> (j < length (m_points m))%nat -> (k < length (m_points m))%nat ->
    getArea ROps (m_points m) i j k = Ok (Rabs (turn (pos m i) (pos m j) (pos m k)) / 2)).
  { intros i j k Hi Hj Hk. set (m' := @mkMesh ROps A (m_center m) (m_radius m) (m_epsilon m) (m_depth m) (m_points m) (m_marks m) [(i, j, k)] (m_attrs m) (m_drawing m)).
    apply (C83_area A m' 0 i j k). split; auto. }
  exists (Rabs (turn (pos m a) (pos m b) (pos m v)) / 2), (Rabs (turn (pos m b) (pos m c) (pos m v)) / 2), (Rabs (turn (pos m c) (pos m a) (pos m v)) / 2).
  rewrite !G by auto. repeat split; auto. rewrite EE, EA. f_equal.
  destruct IN as [u [w [z [Hu [Hw [Hz [S1 [X Y]]]]]]]].
  assert (T1 : turn (pos m a) (pos m b) (pos m v) = z * turn (pos m a) (pos m b) (pos m c)) by (unfold turn; rewrite X, Y; replace u with (1 - w - z) by lra; ring).
  assert (T2 : turn (pos m b) (pos m c) (pos m v) = u * turn (pos m a) (pos m b) (pos m c)) by (unfold turn; rewrite X, Y; replace u with (1 - w - z) by lra; ring).
  assert (T3 : turn (pos m c) (pos m a) (pos m v) = w * turn (pos m a) (pos m b) (pos m c)) by (unfold turn; rewrite X, Y; replace u with (1 - w - z) by lra; ring).
  rewrite T1, T2, T3, !Rabs_mult, (Rabs_right u), (Rabs_right w), (Rabs_right z) by lra. replace u with (1 - w - z) by lra. field.
Qed.
Print Assumptions C83_split.
(** the containment test: exact for elements that are not tiny, symmetric in the corners, and true at the barycentre *)
Theorem C83_inside : forall A (m : mesh ROps A) e a b c p, element m e a b c ->
  exists r, pointInElem ROps A m e p = Ok r /\
    (3 * eps52 <= Rabs (turn (pos m a) (pos m b) (pos m c)) -> r = true -> in_open_triangle p (pos m a) (pos m b) (pos m c)) /\
    (forall q, getElemBarycenter ROps A m e = Ok q -> p = q -> 3 * eps52 <= Rabs (turn (pos m a) (pos m b) (pos m c)) -> r = true) /\
    (forall e', element m e' b c a \/ element m e' b a c -> pointInElem ROps A m e' p = Ok r).
Proof.
  intros A m e a b c p EL.
  assert (G : forall e a b c, element m e a b c -> pointInElem ROps A m e p = Ok (pointInTriangle ROps p (pos m a) (pos m b) (pos m c))).
  { clear. intros e a b c [E [Ha [Hb Hc]]]. unfold pointInElem. rewrite (elem_get _ _ _ E). cbn [bind]. unfold tri_points, t0, t1, t2. cbn [fst snd]. rewrite !get_pos by auto. reflexivity. }
  rewrite (G e a b c EL). eexists. split; [reflexivity|]. split; [|split].
  - intros M H. apply pit_interior; auto.
  - intros q Q -> M. destruct (C83_barycentre A m e a b c EL) as [q' [Q' [_ [X Y]]]]. rewrite Q in Q'. injection Q' as <-.
    assert (N : turn (pos m a) (pos m b) (pos m c) <> 0) by (intros N; rewrite N, Rabs_R0 in M; pose proof eps52_pos; lra).
    apply pit_margin; auto. intros u v w S1 X1 Y1.
    assert (T1 : u * turn (pos m a) (pos m b) (pos m c) = turn q (pos m b) (pos m c)) by (unfold turn; rewrite X1, Y1; replace u with (1 - v - w) by lra; ring).
    assert (T2 : v * turn (pos m a) (pos m b) (pos m c) = turn q (pos m c) (pos m a)) by (unfold turn; rewrite X1, Y1; replace u with (1 - v - w) by lra; ring).
    assert (T3 : w * turn (pos m a) (pos m b) (pos m c) = turn q (pos m a) (pos m b)) by (unfold turn; rewrite X1, Y1; replace u with (1 - v - w) by lra; ring).
    assert (Q1 : px q = (px (pos m a) + px (pos m b) + px (pos m c)) / 3) by lra. assert (Q2 : py q = (py (pos m a) + py (pos m b) + py (pos m c)) / 3) by lra.
    assert (Z : u = 1 / 3 /\ v = 1 / 3 /\ w = 1 / 3).
    { repeat split; apply Rmult_eq_reg_r with (turn (pos m a) (pos m b) (pos m c)); auto; rewrite ?T1, ?T2, ?T3; unfold turn; rewrite Q1, Q2; field. }
    destruct Z as [-> [-> ->]]. lra.
  - intros e' [EL'|EL']; rewrite (G _ _ _ _ EL'); f_equal; [apply pit_rotate_order|apply pit_swap_order].
Qed.
Print Assumptions C83_inside.
(** an element number that does not exist is read outside the array *)
Theorem C83_range : forall o A (m : mesh o A) e p, (length (m_tris m) <= e)%nat ->
  is_ub (getElemBarycenter o A m e) /\ is_ub (getElemArea o A m e) /\ is_ub (pointInElem o A m e p).
Proof.
  intros o A m e p H. unfold getElemBarycenter, getElemArea, pointInElem, get. apply nth_error_None in H. rewrite H. cbn [bind]. repeat split; eexists; reflexivity.
Qed.
Print Assumptions C83_range.
Definition one_elem : mesh ROps R := @mkMesh ROps R org 0 0 1 [P 0 0; P 4 0; P 0 4; P 1 1] [] [(0, 1, 2); (1, 2, 0)]%nat [] (empty_drawing ROps R).
Example C83_met : element one_elem 0 0 1 2 /\ element one_elem 1 1 2 0 /\ in_closed_triangle (pos one_elem 3) (pos one_elem 0) (pos one_elem 1) (pos one_elem 2) /\
  3 * eps52 <= Rabs (turn (pos one_elem 0) (pos one_elem 1) (pos one_elem 2)).
Proof.
  unfold element, pos. cbn [one_elem m_points m_tris nth nth_error length].
  repeat (split; [repeat split; auto; lia|]). split.
  - exists (1 / 2), (1 / 4), (1 / 4). rewrite !px_P, !py_P. repeat split; lra.
  - unfold turn. rewrite !px_P, !py_P. rewrite Rabs_right by lra.
    assert (H : eps52 <= 1) by (unfold eps52; replace 1 with (/ 1) by field; apply Rinv_le_contravar; [lra|rewrite pow_IZR; apply IZR_le; vm_compute; discriminate]). lra.
Qed.
