(** Properties C72 to C75.  Vocabulary in ForceSpec.v, model in ForceModel.v. *)
From Coq Require Import String.
From Coq Require Import List Arith ZArith NArith Bool Lia Permutation Reals Lra.
From Coq Require Import Floats.SpecFloat.
From Verif Require Import Base SumR AlgebraModel AlgebraSpec SolversModel SolversSpec GeometryModel GeometrySpec Geometry_proofs DrawingModel DrawingSpec MeshModel MeshSpec
  ForceModel ForceSpec Shell_proofs Weights_proofs Props_Mesh Props_Material Props_Force.
Import ListNotations.
Local Open Scope R_scope.

(** ** C72: what the weights minimise *)
(** the energy of the matrix is the weighted sum of the squared x components of the force densities; the weights lie in [1, 1000] *)
Theorem C72_force : forall A (m : mesh ROps A) B a, is_u32 (length (m_points m)) -> Forall (tri_in (length (m_points m))) (m_tris m) -> proper m ->
  length B = length (m_tris m) -> tables_of m a -> as_min a <> as_max a ->
  exists M, shell_matrix ROps A (force_K ROps) m B a = Ok M /\ valid_coo M /\ cm M = length (m_points m) /\ (all_used m -> all_diag_touched M) /\
  forall x gs, Forall2 (gradient_of m x) (m_tris m) gs ->
  quad (length (m_points m)) (value 0 M) x =
    sum_ids m (fun i t => let f := px (stress_on (field B i) (nth i gs org)) in
      2 * tri_area m t * error_weight (as_min a) (as_max a) (nth i (as_errs a) 0) * (f * f)).
Proof. exact force_problem. Qed.
Print Assumptions C72_force.
(** the same with the torque densities *)
Theorem C72_torque : forall A (m : mesh ROps A) B a, is_u32 (length (m_points m)) -> Forall (tri_in (length (m_points m))) (m_tris m) -> proper m ->
  length B = length (m_tris m) -> tables_of m a -> as_min a <> as_max a -> forall c,
  exists M, shell_matrix ROps A (torque_K ROps c) m B a = Ok M /\ valid_coo M /\ cm M = length (m_points m) /\ (all_used m -> all_diag_touched M) /\
  forall x gs, Forall2 (gradient_of m x) (m_tris m) gs ->
  quad (length (m_points m)) (value 0 M) x =
    sum_ids m (fun i t => let q := cross_pt (minus_pt (centroid m t) c) (stress_on (field B i) (nth i gs org)) in
      2 * tri_area m t * error_weight (as_min a) (as_max a) (nth i (as_errs a) 0) * (q * q)).
Proof. exact torque_problem. Qed.
Print Assumptions C72_torque.
Theorem C72_weight_range : forall lo hi e, 1 <= error_weight lo hi e <= 1000.
Proof. exact error_weight_range. Qed.
Print Assumptions C72_weight_range.
(** if all triangles have the same error (in size), there is no matrix: the quotient has no value *)
Theorem C72_flat : forall A (m : mesh ROps A) B a K, Forall (tri_in (length (m_points m))) (m_tris m) -> m_tris m <> [] -> tables_of m a -> as_min a = as_max a ->
  ~ is_ok (shell_matrix ROps A K m B a).
Proof. exact flat_problem. Qed.
Print Assumptions C72_flat.

(** a square of two triangles with the errors 4 and -9 *)
Definition sq_assets : assets ROps := @mkAssets ROps [[0; 1]; [0]; [0; 1]; [1]]%nat [4; -9] 2 3 (repeat (false, false, true, false) 4).
Example C72_example : is_u32 (length (m_points sqm)) /\ Forall (tri_in (length (m_points sqm))) (m_tris sqm) /\ proper sqm /\ length [P 1 0; P 0 2] = length (m_tris sqm) /\
  tables_of sqm sq_assets /\ as_min sq_assets <> as_max sq_assets /\ error_weight (as_min sq_assets) (as_max sq_assets) (nth 1 (as_errs sq_assets) 0) = 1000.
Proof.
  pose proof sqm_ready as [[[H1 [H2 H3]] [_ [_ H4]]] _]. split; auto. split; auto. split; auto. split; [reflexivity|]. split; [split; [reflexivity|split; reflexivity]|].
  cbn [as_min as_max sq_assets as_errs nth]. split; [lra|]. unfold error_weight. replace (Rabs (-9)) with (3 * 3) by (rewrite Rabs_left; lra). rewrite sqrt_square by lra.
  replace ((3 - 2) * 999 / (3 - 2) + 1) with 1000 by field. rewrite Rmin_left, Rmax_right by lra. auto.
Qed.
Example C72_flat_example : tables_of sqm (@mkAssets ROps [[0; 1]; [0]; [0; 1]; [1]]%nat [4; -4] 2 2 (repeat (false, false, true, false) 4)) /\ m_tris sqm <> [].
Proof. split; [split; [reflexivity|split; reflexivity]|discriminate]. Qed.

(** ** C73: the force and the torque are the integrals of the densities over the shell *)
Theorem C73_force : forall A mu0 shuffle (m : mesh ROps A) depth B a, Forall (tri_in (length (m_points m))) (m_tris m) -> proper m -> length B = length (m_tris m) ->
  length (as_flags a) = length (m_points m) -> forall f, force_integral ROps A mu0 shuffle m depth B a = Ok f ->
  exists g gs, weights ROps A shuffle (force_K ROps) m B a = Ok g /\ Forall2 (gradient_of m (vget g)) (m_tris m) gs /\
    let s := fun c : pt -> R => sum_ids m (fun i t => if in_the_shell (as_flags a) t then tri_area m t * c (stress_on (field B i) (nth i gs org)) else 0) in
    px f = depth / mu0 * s px /\ py f = depth / mu0 * s py.
Proof. intros A mu0 shuffle m depth B a HT HP LB LF. apply (integrals_are A mu0 shuffle m depth B a HT HP LB LF). Qed.
Print Assumptions C73_force.
Theorem C73_torque : forall A mu0 shuffle (m : mesh ROps A) depth B a, Forall (tri_in (length (m_points m))) (m_tris m) -> proper m -> length B = length (m_tris m) ->
  length (as_flags a) = length (m_points m) -> forall c q, torque_integral ROps A mu0 shuffle m depth B a c = Ok q ->
  exists g gs, weights ROps A shuffle (torque_K ROps c) m B a = Ok g /\ Forall2 (gradient_of m (vget g)) (m_tris m) gs /\
    q = depth / mu0 * sum_ids m (fun i t => if in_the_shell (as_flags a) t then tri_area m t * cross_pt (minus_pt (centroid m t) c) (stress_on (field B i) (nth i gs org)) else 0).
Proof. intros A mu0 shuffle m depth B a HT HP LB LF. apply (integrals_are A mu0 shuffle m depth B a HT HP LB LF). Qed.
Print Assumptions C73_torque.
(** whenever the weights exist the integrals do *)
Theorem C73_defined : forall A mu0 shuffle (m : mesh ROps A) depth B a, Forall (tri_in (length (m_points m))) (m_tris m) -> proper m -> length B = length (m_tris m) ->
  length (as_flags a) = length (m_points m) -> mu0 <> 0 ->
  (is_ok (weights ROps A shuffle (force_K ROps) m B a) -> is_ok (force_integral ROps A mu0 shuffle m depth B a)) /\
  (forall c, is_ok (weights ROps A shuffle (torque_K ROps c) m B a) -> is_ok (torque_integral ROps A mu0 shuffle m depth B a c)).
Proof. exact integrals_defined. Qed.
Print Assumptions C73_defined.
(** the triangle (0,1,2) of the square is in the shell and contributes area 2 times the force density *)
Example C73_example : in_the_shell (as_flags sq_assets) (0, 1, 2)%nat = true /\ tri_area sqm (0, 1, 2)%nat = 2 /\ stress_on (P 1 0) (P 1 1) = P (- (1 / 2)) (1 / 2) /\
  Forall (tri_in (length (m_points sqm))) (m_tris sqm) /\ proper sqm /\ length (as_flags sq_assets) = length (m_points sqm).
Proof.
  split; [reflexivity|]. split.
  - unfold tri_area, tri_turn, turn, pos, t0, t1, t2. cbn [fst snd m_points sqm nth]. rewrite !px_P, !py_P. rewrite Rabs_right; lra.
  - split; [unfold stress_on, norm2; rewrite !px_P, !py_P; apply pt_ext; rewrite ?px_P, ?py_P; field|]. pose proof sqm_ready as [[[H1 [H2 H3]] [_ [_ H4]]] _]. auto.
Qed.

(** ** C74: turning the whole problem turns the force *)
(** true of the force density for every angle, so of the integral for given weights.  Missing: the weights come from the x component alone *)
Definition turned (c s : R) (p : pt) : pt := P (c * px p - s * py p) (s * px p + c * py p).
Theorem C74_density_partial : forall c s, c * c + s * s = 1 -> forall B g, stress_on (turned c s B) (turned c s g) = turned c s (stress_on B g).
Proof.
  intros c s H B g. unfold stress_on, norm2, turned. rewrite !px_P, !py_P.
  assert (E1 : (c * px B - s * py B) * (c * px B - s * py B) + (s * px B + c * py B) * (s * px B + c * py B) = (c * c + s * s) * (px B * px B + py B * py B)) by ring.
  assert (E2 : (c * px B - s * py B) * (c * px g - s * py g) + (s * px B + c * py B) * (s * px g + c * py g) = (c * c + s * s) * (px B * px g + py B * py g)) by ring.
  rewrite E1, E2, H. apply pt_ext; rewrite ?px_P, ?py_P; field.
Qed.
Print Assumptions C74_density_partial.
(** *** a quarter turn of the mesh, the outlines and the field of the example of C47: the force does not turn with them *)
Definition quarter (p : vec FOps) : vec FOps := @mkV FOps (opp FOps (vy p)) (vx p).
Definition quarter_mesh (m : mesh FOps nat) : mesh FOps nat :=
  @mkMesh FOps nat (quarter (m_center m)) (m_radius m) (m_epsilon m) (m_depth m) (map quarter (m_points m)) (m_marks m) (m_tris m) (m_attrs m)
    (mkD [7%nat] (map (fun r => (quarter (fst r), snd r)) (regions (m_drawing m))) [] [] (map (map quarter) (polygons (m_drawing m)))).
Definition force_at (sh : list (N * f64) -> list (N * f64)) (m : mesh FOps nat) (B : list (vec FOps)) (p : vec FOps) : res (vec FOps) :=
  computeForceIntegrals FOps nat O (fq 1 (10 ^ 308)) fmu0 sh m (fq 1 1) B p.
Definition in_body : vec FOps := @mkV FOps (fq 1 2) (fq 1 2).
Lemma before_turn : check_force (fun x y => SFltb (fq 20000 1) x && SFltb (fq 60000 1) y) (force_at (fun l => rev l) body_mesh (mixed_field 1) in_body) = true.
Proof. vm_compute. reflexivity. Qed.
Lemma after_turn : check_force (fun x y => SFltb (fq 10000 1) x) (force_at (fun l => rev l) (quarter_mesh body_mesh) (map quarter (mixed_field 1)) (quarter in_body)) = true.
Proof. vm_compute. reflexivity. Qed.
(** the force (x, y) with y above 60000 should become (-y, x); its first component is above 10000 *)
Theorem C74_refuted : exists sh m B p f f', (forall l, Permutation (sh l) l) /\ closed_surface (m_tris m) /\
  force_at sh m B p = Ok f /\ force_at sh (quarter_mesh m) (map quarter B) (quarter p) = Ok f' /\ SFltb (fq 60000 1) (vy f) = true /\ SFltb (fq 10000 1) (vx f') = true.
Proof.
  destruct (check_force_spec _ _ before_turn) as [f [E H]]. destruct (check_force_spec _ _ after_turn) as [f' [E' H']].
  exists (fun l => rev l), body_mesh, (mixed_field 1), in_body, f, f'. split; [intros l; apply Permutation_sym, Permutation_rev|]. split; [exact body_closed|].
  split; [exact E|]. split; [exact E'|]. apply andb_true_iff in H. destruct H as [_ H]. split; [exact H|exact H'].
Qed.
Print Assumptions C74_refuted.

(** ** C75: the torque about another point *)
(** for given weights it changes by the moment of the force.  Missing: the weights are computed anew for each centre *)
Theorem C75_moment_partial : forall A (m : mesh ROps A) fl (B gs : list pt) c c',
  let s := fun k : pt -> R => sum_ids m (fun i t => if in_the_shell fl t then tri_area m t * k (stress_on (field B i) (nth i gs org)) else 0) in
  let q := fun c => sum_ids m (fun i t => if in_the_shell fl t then tri_area m t * cross_pt (minus_pt (centroid m t) c) (stress_on (field B i) (nth i gs org)) else 0) in
  q c' = q c + cross_pt (minus_pt c c') (P (s px) (s py)).
Proof.
  intros A m fl B gs c c' s q. unfold cross_pt at 1, minus_pt at 1 2. rewrite !px_P, !py_P. unfold q, s, sum_ids.
  induction (combine (seq 0 (length (m_tris m))) (m_tris m)) as [|z l IH]; [cbn; ring|].
  rewrite !Fem_proofs.suml_cons, IH. destruct (in_the_shell fl (snd z)); [|ring]. unfold cross_pt, minus_pt. rewrite !px_P, !py_P. ring.
Qed.
Print Assumptions C75_moment_partial.
Definition torque_at (m : mesh FOps nat) (B : list (vec FOps)) (p c : vec FOps) : res f64 :=
  computeTorqueIntegral FOps nat O (fq 1 (10 ^ 308)) fmu0 (fun l => rev l) m (fq 1 1) B p c.
Definition check_num (P : f64 -> bool) (r : res f64) : bool := match r with Ok f => P f | _ => false end.
Lemma check_num_spec : forall P r, check_num P r = true -> exists f, r = Ok f /\ P f = true.
Proof. intros P [f|s|s|s] H; try discriminate H. exists f. auto. Qed.
Lemma torque_0 : check_num (fun q => SFltb q (fq (-60000) 1)) (torque_at body_mesh (mixed_field 1) in_body (V 0 0)) = true.
Proof. vm_compute. reflexivity. Qed.
Lemma torque_1 : check_num (fun q => SFltb (fq (-30000) 1) q) (torque_at body_mesh (mixed_field 1) in_body (V 1 0)) = true.
Proof. vm_compute. reflexivity. Qed.
(** the y component of the force is positive: moving the centre in the direction of x must lower the torque, by more than 60000; it rises by more than 30000 *)
Theorem C75_refuted : exists m B p f q0 q1, closed_surface (m_tris m) /\ force_at (fun l => rev l) m B p = Ok f /\ SFltb (fq 60000 1) (vy f) = true /\
  torque_at m B p (V 0 0) = Ok q0 /\ torque_at m B p (V 1 0) = Ok q1 /\ SFltb q0 (fq (-60000) 1) = true /\ SFltb (fq (-30000) 1) q1 = true.
Proof.
  destruct (check_force_spec _ _ before_turn) as [f [E H]]. destruct (check_num_spec _ _ torque_0) as [q0 [E0 H0]]. destruct (check_num_spec _ _ torque_1) as [q1 [E1 H1]].
  exists body_mesh, (mixed_field 1), in_body, f, q0, q1. apply andb_true_iff in H. destruct H as [_ H]. split; [exact body_closed|]. split; [exact E|]. split; [exact H|]. auto.
Qed.
Print Assumptions C75_refuted.
