(** Properties C35-C38, C49 and C59.  Vocabulary in MeshSpec.v, model in MeshModel.v. *)
From Coq Require Import String.
From Coq Require Import List Arith ZArith NArith Bool Lia Reals Lra Permutation.
From Verif Require Import Base SumR AlgebraModel AlgebraSpec SolversModel SolversSpec Solvers_bridge GeometryModel GeometrySpec Geometry_proofs Circle_proofs DrawingModel DrawingSpec
  MeshModel MeshSpec Adjacency_proofs Fem_proofs Energy_proofs MeshGeo_proofs Pin_proofs Wellposed_proofs.
Import ListNotations.

(** ** C35: memory safety of the assembly *)
Theorem C35_conductor_safe_up_to_18 : forall (o : Ops) (A : Type), scalar_ops_total o -> forall (sigma : A -> T o) (m : mesh o A), well_shaped m ->
  is_ub (cd_getFemSystem o A sigma m) -> exists v, 18 < degree (m_tris m) v.
Proof. exact cd_safe. Qed.
Print Assumptions C35_conductor_safe_up_to_18.
Theorem C35_conductor_out_of_bounds_beyond_18 : forall (o : Ops) (A : Type) (sigma : A -> T o) (m : mesh o A), well_shaped m -> known_regions m ->
  (exists v, 18 < degree (m_tris m) v) -> is_ub (cd_getFemSystem o A sigma m).
Proof. exact cd_over. Qed.
Print Assumptions C35_conductor_out_of_bounds_beyond_18.
Theorem C35_magnetostatic_safe_up_to_18 : forall (o : Ops) (A : Type), scalar_ops_total o -> forall (curJ : A -> T o) (mag : A -> vec o) (m : mesh o A) es,
  well_shaped m -> drawing_ok m -> Permutation es (unique_edges (m_tris m)) -> is_ub (ms_getFemSystem o A curJ mag m es) -> exists v, 18 < degree (m_tris m) v.
Proof. exact ms_safe. Qed.
Print Assumptions C35_magnetostatic_safe_up_to_18.
Theorem C35_magnetostatic_out_of_bounds_beyond_18 : forall (o : Ops) (A : Type) (curJ : A -> T o) (mag : A -> vec o) (m : mesh o A) es, well_shaped m -> known_regions m ->
  (exists v, 18 < degree (m_tris m) v) -> is_ub (ms_getFemSystem o A curJ mag m es).
Proof. exact ms_over. Qed.
Print Assumptions C35_magnetostatic_out_of_bounds_beyond_18.
Theorem C35_cotangent_safe_up_to_9 : forall (o : Ops) (A : Type), scalar_ops_total o -> forall (lm : libm o) (m : mesh o A), well_shaped m ->
  is_ub (cd_getFemSystemCotangentWeights o A lm m) -> exists v, 9 < degree (m_tris m) v.
Proof. exact cot_safe. Qed.
Print Assumptions C35_cotangent_safe_up_to_9.
Theorem C35_cotangent_out_of_bounds_beyond_9 : forall (o : Ops) (A : Type) (lm : libm o) (m : mesh o A), well_shaped m -> known_regions m ->
  (exists v, 9 < degree (m_tris m) v) -> is_ub (cd_getFemSystemCotangentWeights o A lm m).
Proof. exact cot_over. Qed.
Print Assumptions C35_cotangent_out_of_bounds_beyond_9.

Local Open Scope R_scope.
(** a fan of 19 triangles around (0,0) with its other vertices on the parabola y = x^2 *)
Definition fan_points : list pt := map (fun k => P (INR k) (INR k * INR k)) (seq 0 21).
Definition fan_tris : list tri := map (fun k => (0, S k, S (S k))%nat) (seq 0 19).
Definition fan : mesh ROps R := mkMesh org 0 0 1 fan_points [] fan_tris (repeat O 19) (mkD [1] [] [] [] []).
Lemma fan_pos : forall k, (k < 21)%nat -> pos fan k = P (INR k) (INR k * INR k).
Proof.
  intros k H. unfold pos, fan. cbn [m_points]. unfold fan_points. rewrite (nth_indep _ org ((fun k => P (INR k) (INR k * INR k)) O)) by (rewrite map_length, seq_length; auto).
  rewrite (map_nth (fun k => P (INR k) (INR k * INR k))), seq_nth by auto. reflexivity.
Qed.
Lemma fan_tri : forall i t, nth_error fan_tris i = Some t -> (i < 19)%nat /\ t = (0, S i, S (S i))%nat.
Proof.
  intros i t H. unfold fan_tris in H. rewrite nth_error_map in H. destruct (nth_error (seq 0 19) i) as [k|] eqn:E; [|discriminate H].
  assert (L : (i < 19)%nat) by (rewrite <- (seq_length 19 0); apply nth_error_Some; congruence).
  rewrite (nth_error_nth' _ O) in E by (rewrite seq_length; auto). rewrite seq_nth in E by auto. injection E as <-. cbn in H. injection H as <-. auto.
Qed.
(** a point of triangle i lies between the lines y = (i+1) x and y = (i+2) x *)
Lemma fan_between : forall k (x y u v w : R), 0 < k -> 0 <= u -> 0 <= v -> 0 <= w ->
  x = u * 0 + v * k + w * (k + 1) -> y = u * 0 + v * (k * k) + w * ((k + 1) * (k + 1)) ->
  y - k * x = w * (k + 1) /\ (k + 1) * x - y = v * k.
Proof. intros k x y u v w Hk Hu Hv Hw -> ->. split; ring. Qed.
Lemma fan_conforming : conforming fan.
Proof.
  assert (C : forall i, (i < 19)%nat -> pos fan (t0 (0, S i, S (S i))%nat) = P 0 0 /\ pos fan (t1 (0, S i, S (S i))%nat) = P (INR (S i)) (INR (S i) * INR (S i)) /\
     pos fan (t2 (0, S i, S (S i))%nat) = P (INR (S i) + 1) ((INR (S i) + 1) * (INR (S i) + 1))).
  { intros i Hi. unfold t0, t1, t2. cbn [fst snd]. rewrite !fan_pos by lia. repeat split; apply pt_ext; rewrite ?px_P, ?py_P; rewrite ?S_INR; cbn [INR]; ring. }
  assert (POS : forall i, 0 < INR (S i)) by (intros i; rewrite S_INR; pose proof (pos_INR i); lra).
  split; [|split; [|split]].
  - rewrite Forall_forall. intros t Ht. cbn [m_tris fan] in Ht. destruct (In_nth_error _ _ Ht) as [i Hi]. apply fan_tri in Hi as [L ->].
    cbn [m_points fan]. unfold fan_points. rewrite map_length, seq_length. unfold tri_in, t0, t1, t2. cbn [fst snd]. lia.
  - unfold proper. rewrite Forall_forall. intros t Ht. cbn [m_tris fan] in Ht. destruct (In_nth_error _ _ Ht) as [i Hi]. apply fan_tri in Hi as [L ->].
    unfold tri_turn. destruct (C i L) as [-> [-> ->]]. unfold turn. rewrite !px_P, !py_P. pose proof (POS i). set (k := INR (S i)) in *.
    replace ((k - 0) * ((k + 1) * (k + 1) - 0) - (k + 1 - 0) * (k * k - 0)) with (k * (k + 1)) by ring. apply Rgt_not_eq. apply Rmult_lt_0_compat; lra.
  - intros i j t t' p Hi Hj N O1 O2. cbn [m_tris fan] in Hi, Hj. apply fan_tri in Hi as [Li ->]. apply fan_tri in Hj as [Lj ->].
    destruct (C i Li) as [E0 [E1 E2]]. rewrite E0, E1, E2 in O1. destruct (C j Lj) as [F0 [F1 F2]]. rewrite F0, F1, F2 in O2.
    destruct O1 as [u [v [w [Hu [Hv [Hw [_ [X1 Y1]]]]]]]]. destruct O2 as [u' [v' [w' [Hu' [Hv' [Hw' [_ [X2 Y2]]]]]]]].
    rewrite !px_P in X1, X2. rewrite !py_P in Y1, Y2.
    assert (G : forall i j x y v w v' w', (i < j)%nat -> 0 < v -> 0 < w -> 0 < v' -> 0 < w' ->
       y - INR (S i) * x = w * (INR (S i) + 1) -> (INR (S i) + 1) * x - y = v * INR (S i) -> y - INR (S j) * x = w' * (INR (S j) + 1) -> (INR (S j) + 1) * x - y = v' * INR (S j) -> False).
    { clear - POS. intros i j x y v w v' w' Hij V W V' W' A1 A2 B1 B2. pose proof (POS i) as PI'. pose proof (POS j) as PJ.
      assert (LE : INR (S i) + 1 <= INR (S j)) by (rewrite <- S_INR; apply le_INR; lia).
      assert (Q1 : 0 < v * INR (S i)) by (apply Rmult_lt_0_compat; auto). assert (Q2 : 0 < w * (INR (S i) + 1)) by (apply Rmult_lt_0_compat; lra).
      assert (Q3 : 0 < w' * (INR (S j) + 1)) by (apply Rmult_lt_0_compat; lra). 
      assert (X0 : 0 < x) by lra. assert (0 <= (INR (S j) - (INR (S i) + 1)) * x) by (apply Rmult_le_pos; lra). lra. }
    destruct (fan_between _ _ _ u v w (POS i) ltac:(lra) ltac:(lra) ltac:(lra) X1 Y1) as [A1 A2]. destruct (fan_between _ _ _ u' v' w' (POS j) ltac:(lra) ltac:(lra) ltac:(lra) X2 Y2) as [B1 B2].
    destruct (Nat.lt_trichotomy i j) as [H|[H|H]]; [|contradiction|].
    + exact (G i j (px p) (py p) v w v' w' H Hv Hw Hv' Hw' A1 A2 B1 B2).
    + exact (G j i (px p) (py p) v' w' v w H Hv' Hw' Hv Hw B1 B2 A1 A2).
  - intros t q Ht Hq Cl. cbn [m_tris fan] in Ht. destruct (In_nth_error _ _ Ht) as [i Hi]. apply fan_tri in Hi as [L ->].
    cbn [m_points fan] in Hq. unfold fan_points in Hq. rewrite map_length, seq_length in Hq. rewrite (fan_pos q Hq) in Cl. destruct (C i L) as [E0 [E1 E2]]. rewrite E0, E1, E2 in Cl.
    destruct Cl as [u [v [w [Hu [Hv [Hw [_ [X1 Y1]]]]]]]]. rewrite !px_P in X1. rewrite !py_P in Y1.
    destruct (fan_between _ _ _ u v w (POS i) Hu Hv Hw X1 Y1) as [A1 A2]. unfold corners, t0, t1, t2. cbn [fst snd In].
    destruct q as [|q]; [auto|]. right. pose proof (POS q) as PQ. set (x := INR (S q)) in *. pose proof (POS i) as PI'.
    assert (L1 : INR (S i) <= x). { assert (0 <= w * (INR (S i) + 1)) by (apply Rmult_le_pos; lra). apply (Rmult_le_reg_r x); lra. }
    assert (L2 : x <= INR (S (S i))). { rewrite (S_INR (S i)). assert (0 <= v * INR (S i)) by (apply Rmult_le_pos; lra). apply (Rmult_le_reg_r x); lra. }
    unfold x in L1, L2. apply INR_le in L1. apply INR_le in L2. lia.
Qed.
Lemma fan_shaped : well_shaped fan /\ known_regions fan /\ (18 < degree (m_tris fan) 0)%nat.
Proof.
  split; [|split].
  - split; [apply fan_conforming|]. split; [reflexivity|]. unfold is_u32. cbn. lia.
  - unfold known_regions. cbn. repeat constructor.
  - vm_compute. lia.
Qed.
Theorem C35_refuted : exists m : mesh ROps R, conforming m /\ well_shaped m /\ known_regions m /\ (forall sigma, is_ub (cd_getFemSystem ROps R sigma m)) /\
  (forall curJ mag es, is_ub (ms_getFemSystem ROps R curJ mag m es)) /\ forall lm, is_ub (cd_getFemSystemCotangentWeights ROps R lm m).
Proof.
  exists fan. destruct fan_shaped as [W [K D]]. split; [apply fan_conforming|]. split; auto. split; auto.
  split; [intros; apply cd_over; eauto|]. split; [intros; apply ms_over; eauto|]. intros lm. apply cot_over; auto. exists O. lia.
Qed.
Print Assumptions C35_refuted.

(** ** the example mesh: a square of two triangles *)
Definition sqm : mesh ROps R :=
  mkMesh org 0 1 2 [P 0 0; P 2 0; P 2 2; P 0 2] [true; true; true; true] [(0, 1, 2); (0, 2, 3)]%nat [0; 1]%nat (mkD [3; 5] [] [] [] []).
Lemma deg_small : forall ts v, (length ts <= 6)%nat -> (degree ts v <= 18)%nat.
Proof.
  intros ts v H. unfold degree. assert (L : length (concat (map corners ts)) = (3 * length ts)%nat) by (clear H; induction ts as [|t ts IH]; cbn [map concat]; [reflexivity|rewrite app_length, IH; unfold corners; cbn [length]; lia]).
  assert (F : forall (l : list nat) f, (length (filter f l) <= length l)%nat) by (intros l f; induction l as [|x l IH]; cbn; [lia|destruct (f x); cbn; lia]).
  specialize (F (concat (map corners ts)) (Nat.eqb v)). lia.
Qed.
Lemma sqm_ready : fem_ready sqm [3; 5] /\ all_used sqm.
Proof.
  split; [split; [|split; [|split]]|].
  - split; [|split; [reflexivity|unfold is_u32; cbn; lia]]. cbn. repeat constructor; unfold t0, t1, t2; cbn; lia.
  - cbn. repeat constructor.
  - intros v. apply deg_small. cbn. lia.
  - unfold proper. cbn [m_tris sqm]. repeat constructor; unfold tri_turn, pos, t0, t1, t2, turn; cbn [fst snd m_points sqm nth]; rewrite !px_P, !py_P; lra.
  - intros v Hv. cbn in Hv. destruct v as [|[|[|[|v]]]]; try lia; vm_compute; lia.
Qed.
Example C35_example : well_shaped sqm /\ drawing_ok sqm /\ (forall v, (degree (m_tris sqm) v <= 9)%nat).
Proof.
  split; [apply sqm_ready|]. split; [constructor|]. intros v. unfold degree. cbn. destruct v as [|[|[|[|v]]]]; cbn; lia.
Qed.

(** ** C36: energy *)
Theorem C36_conductor_energy : forall (A : Type) (m : mesh ROps A) (ps : list A) (sigma : A -> R), fem_ready m ps -> all_used m ->
  exists S, cd_getFemSystem ROps A sigma m = Ok S /\ valid_system S /\ sdim S = length (m_points m) /\ all_diag_touched (sA R S) /\
  (forall x gs, Forall2 (gradient_of m x) (m_tris m) gs ->
     quad (length (m_points m)) (value 0 (sA R S)) x = m_depth m * sum_tris m (combine ps gs) (fun t pg => sigma (fst pg) * norm2 (snd pg) * tri_area m t)) /\
  (forall a, (a < length (m_points m))%nat -> sumn (length (m_points m)) (value 0 (sA R S) a) = 0) /\ (forall a, vget (sb R S) a = 0).
Proof. exact (@cd_energy). Qed.
Print Assumptions C36_conductor_energy.
(** the gradients exist: they are what computeGrad returns *)
Theorem C36_gradients_exist : forall (A : Type) (m : mesh ROps A) (x : list R), Forall (tri_in (length (m_points m))) (m_tris m) -> proper m -> length x = length (m_points m) ->
  exists gs, computeGrad ROps A m x = Ok gs /\ Forall2 (gradient_of m (vget x)) (m_tris m) gs.
Proof. exact (@computeGrad_ok). Qed.
Print Assumptions C36_gradients_exist.
Theorem C36_conductor_semidefinite : forall (A : Type) (m : mesh ROps A) (ps : list A) (sigma : A -> R) S, fem_ready m ps -> all_used m -> cd_getFemSystem ROps A sigma m = Ok S ->
  (forall p, In p ps -> 0 <= sigma p) -> 0 <= m_depth m -> forall x, 0 <= quad (sdim S) (value 0 (sA R S)) x.
Proof. exact cd_nonneg. Qed.
Print Assumptions C36_conductor_semidefinite.
Theorem C36_symmetric : forall (A : coo R) i j, value 0 A i j = value 0 A j i.
Proof. exact value_sym. Qed.
Print Assumptions C36_symmetric.
Theorem C36_currents_add_up_to_zero : forall (A : Type) (m : mesh ROps A) (ps : list A) (sigma : A -> R) S, fem_ready m ps -> all_used m -> cd_getFemSystem ROps A sigma m = Ok S ->
  forall x, sumn (length (m_points m)) (fun i => sumn (length (m_points m)) (fun j => value 0 (sA R S) i j * x j)) = 0.
Proof.
  intros A m ps sigma S RD U E x. destruct (cd_energy m ps sigma RD U) as [S0 [E0 [_ [_ [_ [_ [RS _]]]]]]]. rewrite E in E0. injection E0 as <-. apply kirchhoff. auto.
Qed.
Print Assumptions C36_currents_add_up_to_zero.
Example C36_example : fem_ready sqm [3; 5] /\ all_used sqm /\ gradient_of sqm (fun v => nth v [0; 2; 4; 2] 0) (0, 1, 2)%nat (P 1 1).
Proof.
  split; [apply sqm_ready|]. split; [apply sqm_ready|]. split; unfold pos, t0, t1, t2; cbn [fst snd m_points sqm nth]; rewrite !px_P, !py_P; lra.
Qed.

(** ** C37: load *)
Theorem C37_total_load : forall (A : Type) (m : mesh ROps A) (ps : list A) (curJ : A -> R) (mag : A -> pt), fem_ready m ps -> (2 <= length (m_points m))%nat ->
  (forall r, In r (regions (m_drawing m)) -> exists p, nth_error (region_map (m_drawing m)) (snd r) = Some p /\ mag p = org) ->
  forall es, exists S, ms_getFemSystem ROps A curJ mag m es = Ok S /\
    forall mu, mu_vector m mu -> sumn (length (m_points m)) (vget (sb R (sys_eval S mu))) = sum_tris m ps (fun t p => curJ p * tri_area m t).
Proof. intros A m ps curJ mag RD. exact (ms_no_magnets m ps curJ RD mag). Qed.
Print Assumptions C37_total_load.
Theorem C37_energy_and_row_sums : forall (A : Type) (m : mesh ROps A) (ps : list A) (curJ : A -> R) (mag : A -> pt) es S, fem_ready m ps ->
  ms_getFemSystem ROps A curJ mag m es = Ok S -> valid_system S /\ length (sb _ S) = length (m_points m) /\
  forall mu, mu_vector m mu -> sys_ok S mu /\
    (forall x gs, Forall2 (gradient_of m x) (m_tris m) gs ->
       quad (length (m_points m)) (value 0 (sA R (sys_eval S mu))) x = sum_tris m (combine mu gs) (fun t pg => norm2 (snd pg) * tri_area m t / fst pg)) /\
    (forall a, (a < length (m_points m))%nat -> sumn (length (m_points m)) (value 0 (sA R (sys_eval S mu)) a) = 0).
Proof.
  intros A m ps curJ mag es S RD E. destruct (ms_system m ps curJ RD mag es S E) as [V [L [_ H]]]. split; auto. split; auto.
  intros mu HM. destruct (H mu HM) as [H1 [_ [H2 [H3 _]]]]. auto.
Qed.
Print Assumptions C37_energy_and_row_sums.
Example C37_example : fem_ready sqm [3; 5] /\ (2 <= length (m_points sqm))%nat /\ mu_vector sqm [1; 2] /\ sum_tris sqm [3; 5] (fun t p => p * tri_area sqm t) = 16.
Proof.
  split; [apply sqm_ready|]. split; [cbn; lia|]. split.
  - split; [reflexivity|]. intros i Hi. cbn in Hi. destruct i as [|[|i]]; [| |lia]; unfold vget; cbn [nth]; lra.
  - unfold sum_tris. cbn [m_tris sqm combine]. rewrite !suml_cons. cbn [fst snd]. unfold tri_area, tri_turn, turn, pos, t0, t1, t2. cbn [fst snd m_points sqm nth]. rewrite !px_P, !py_P.
    rewrite !Rabs_right by lra. unfold suml. cbn. lra.
Qed.

(** ** C38: gradient and curl *)
Theorem C38_gradient_of_an_affine_field : forall (A : Type) (m : mesh ROps A) (a b c : R), Forall (tri_in (length (m_points m))) (m_tris m) -> proper m ->
  computeGrad ROps A m (map (fun p => a + b * px p + c * py p) (m_points m)) = Ok (repeat (P b c) (length (m_tris m))).
Proof.
  intros A m a b c W Hp. destruct (computeGrad_ok m (map (fun p => a + b * px p + c * py p) (m_points m)) W Hp) as [gs [E F]]; [rewrite map_length; auto|]. rewrite E. f_equal.
  unfold proper in Hp. clear E. revert W Hp. induction F as [|t g l gs G F IH]; intros W Hp; [reflexivity|]. inversion W as [|? ? [W0 [W1 W2]] Wr]; subst. inversion Hp as [|? ? Hp1 Hp2]; subst.
  cbn [length repeat]. f_equal; auto. apply (affine_gradient m a b c t); auto.
  assert (V : forall i, (i < length (m_points m))%nat -> vget (map (fun p => a + b * px p + c * py p) (m_points m)) i = a + b * px (pos m i) + c * py (pos m i)).
  { intros i Hi. unfold vget. rewrite (nth_indep _ 0 ((fun p => a + b * px p + c * py p) org)) by (rewrite map_length; auto). rewrite (map_nth (fun p => a + b * px p + c * py p)). reflexivity. }
  unfold gradient_of in *. rewrite !V in G by auto. exact G.
Qed.
Print Assumptions C38_gradient_of_an_affine_field.
Theorem C38_curl_is_the_gradient_turned : forall (A : Type) (m : mesh ROps A) (x : list R), Forall (tri_in (length (m_points m))) (m_tris m) -> proper m -> length x = length (m_points m) ->
  exists gs, computeGrad ROps A m x = Ok gs /\ computeCurl ROps A m x = Ok (map quarter gs) /\ Forall2 (gradient_of m (vget x)) (m_tris m) gs.
Proof.
  intros A m x W Hp L. destruct (computeGrad_ok m x W Hp L) as [gs [E F]]. destruct (computeCurl_ok m x W Hp L) as [gs' [E' C]]. rewrite E in E'. injection E' as <-. exists gs. auto.
Qed.
Print Assumptions C38_curl_is_the_gradient_turned.
(** the flux through an edge is the difference of the potentials at its ends, whichever triangle it is computed in *)
Theorem C38_normal_flux_is_continuous : forall (A : Type) (m : mesh ROps A) (x : nat -> R) (t : tri) (g : pt) (u v : nat), gradient_of m x t g -> In u (corners t) -> In v (corners t) ->
  px (quarter g) * (py (pos m v) - py (pos m u)) - py (quarter g) * (px (pos m v) - px (pos m u)) = x u - x v.
Proof.
  intros A m x t g u v G Hu Hv. pose proof (gradient_corner m x t g u v G Hu Hv) as K. unfold quarter. rewrite px_P, py_P. lra.
Qed.
Print Assumptions C38_normal_flux_is_continuous.
Theorem C38_flux_out_of_a_triangle_is_zero : forall (A : Type) (m : mesh ROps A) (x : nat -> R) (t : tri) (g : pt), gradient_of m x t g ->
  let flux := fun u v => px (quarter g) * (py (pos m v) - py (pos m u)) - py (quarter g) * (px (pos m v) - px (pos m u)) in
  flux (t0 t) (t1 t) + flux (t1 t) (t2 t) + flux (t2 t) (t0 t) = 0.
Proof. intros A m x t g G flux. unfold flux. ring. Qed.
Print Assumptions C38_flux_out_of_a_triangle_is_zero.
(** a degenerate triangle: a division by zero *)
Theorem C38_degenerate_triangle : forall (A : Type) (m : mesh ROps A) (x : list R) t ts, m_tris m = t :: ts -> tri_in (length (m_points m)) t -> length x = length (m_points m) ->
  tri_turn m t = 0 -> is_nonfin (computeGrad ROps A m x) /\ is_nonfin (computeCurl ROps A m x).
Proof.
  intros A m x t ts E Hin L Z.
  assert (K : exists s, elem_grad ROps (m_points m) x t = NonFin s).
  { pose proof Hin as [H0 [H1 H2]]. unfold elem_grad. rewrite tri_points_ok by auto. cbn [bind]. rewrite !(get_lt _ x _ 0) by lia. cbn [bind].
    cbn [div ROps]. unfold Rdivr at 1. destruct (Req_EM_T _ 0) as [_|N]; [eexists; reflexivity|]. exfalso. apply N. unfold tri_turn, turn in Z.
    match goal with |- ?l = 0 => change l with ((px (pos m (t1 t)) - px (pos m (t0 t))) * (py (pos m (t2 t)) - py (pos m (t0 t))) - (py (pos m (t1 t)) - py (pos m (t0 t))) * (px (pos m (t2 t)) - px (pos m (t0 t)))) end. lra. }
  destruct K as [s K]. unfold computeGrad, computeCurl. rewrite E. cbn [map_res]. rewrite K. cbn [bind]. split; exists s; reflexivity.
Qed.
Print Assumptions C38_degenerate_triangle.
Example C38_example : Forall (tri_in (length (m_points sqm))) (m_tris sqm) /\ proper sqm /\ gradient_of sqm (fun v => nth v [0; 2; 4; 2] 0) (0, 1, 2)%nat (P 1 1).
Proof. split; [apply sqm_ready|]. split; [apply sqm_ready|]. apply C36_example. Qed.

(** ** C49: the condition at infinity *)
Theorem C49_three_farthest : forall (pts : list pt), let D := fun i => dist (nth i pts org) org in
  (exists i j k, (i < length pts)%nat /\ (j < length pts)%nat /\ (k < length pts)%nat /\ i <> j /\ i <> k /\ j <> k /\ 0 < D i /\ 0 < D j /\ 0 < D k) ->
  exists a b c, farthest ROps pts = Ok (a, b, c) /\ (a < length pts)%nat /\ (b < length pts)%nat /\ (c < length pts)%nat /\
    a <> b /\ a <> c /\ b <> c /\ D b <= D a /\ D c <= D b /\ 0 < D c /\
    forall j, (j < length pts)%nat -> j <> a -> j <> b -> j <> c -> D j <= D c.
Proof. exact farthest_R. Qed.
Print Assumptions C49_three_farthest.
Theorem C49_potential_is_zero_there : forall (A : Type) (m : mesh ROps A) (S : nsystem ROps) a b c mu, farthest ROps (m_points m) = Ok (a, b, c) -> NoDup [a; b; c] ->
  (a < length (m_points m))%nat -> (b < length (m_points m))%nat -> (c < length (m_points m))%nat -> valid_system S -> length (sb _ S) = length (m_points m) -> sys_ok S mu ->
  exists S', addDirichletInfinite ROps A m S = Ok S' /\ valid_system S' /\ length (sb _ S') = length (m_points m) /\ sys_ok S' mu /\
    forall x, solves (sys_eval S' mu) x <-> (x a = 0 /\ x b = 0 /\ x c = 0 /\
      forall i, (i < length (m_points m))%nat -> i <> a -> i <> b -> i <> c -> row_eq (sys_eval S mu) x i).
Proof.
  intros A m S a b c mu E ND La Lb Lc W L K. destruct (infinite_solutions A m S a b c mu E ND La Lb Lc W L K) as [S' [H1 [H2 [H3 [H4 [_ [_ H5]]]]]]]. exists S'. auto 10.
Qed.
Print Assumptions C49_potential_is_zero_there.
(** a vertex at the origin: two of the three nodes coincide although the mesh has three nodes *)
Theorem C49_refuted : exists m : mesh ROps R, conforming m /\ length (m_points m) = 3%nat /\ exists a b, farthest ROps (m_points m) = Ok (a, b, b) /\ pos m b <> org /\ a <> b.
Proof.
  exists (mkMesh org 0 1 1 [P 1 0; P 0 0; P 0 2] [] [(0, 1, 2)]%nat [O] (mkD [1] [] [] [] [])). split; [|split; [reflexivity|exists 2%nat, O]].
  - split; [repeat constructor; unfold t0, t1, t2; cbn; lia|]. split; [repeat constructor; unfold tri_turn, turn, pos, t0, t1, t2; cbn [fst snd m_points nth]; rewrite !px_P, !py_P; lra|]. split.
    + intros i j t t' p Hi Hj N. cbn in Hi, Hj. destruct i as [|[|i]]; cbn in Hi; try discriminate Hi. destruct j as [|[|j]]; cbn in Hj; try discriminate Hj. contradiction.
    + intros t v [<-|[]] Hv _. cbn in Hv. unfold corners, t0, t1, t2. cbn. lia.
  - split; [|split; [|lia]].
    + unfold farthest, forM_up. cbn [length m_points forM_from]. unfold get. cbn [nth_error bind]. rewrite !distance_R. cbn [bind].
      change (vzero ROps) with org. assert (D0 : dist (P 1 0) org = 1). { unfold dist, org. rewrite !px_P, !py_P. replace ((1 - 0) * (1 - 0) + (0 - 0) * (0 - 0)) with (1 * 1) by ring. apply sqrt_square. lra. }
      assert (D2 : dist (P 0 2) org = 2). { unfold dist, org. rewrite !px_P, !py_P. replace ((0 - 0) * (0 - 0) + (2 - 0) * (2 - 0)) with (2 * 2) by ring. apply sqrt_square. lra. }
      change (P 0 0) with org. rewrite dist_self, D0, D2.
      set (z := zero ROps). set (i0 := 1 : T ROps). set (i2 := 2 : T ROps).
      assert (S1 : far_step ROps 0 i0 (O, z, (O, z), (O, z)) = (O, i0, (O, z), (O, z))) by (unfold far_step, gtb, i0, z; cbn [fst snd ltb zero ROps]; unfold Rltb; destruct (Rlt_dec 0 1); [reflexivity|lra]).
      assert (S2 : far_step ROps 1 z (O, i0, (O, z), (O, z)) = (O, i0, (O, z), (O, z))) by (unfold far_step, gtb, i0, z; cbn [fst snd ltb zero ROps]; unfold Rltb; destruct (Rlt_dec 1 0); [lra|]; destruct (Rlt_dec 0 0); [lra|reflexivity]).
      assert (S3 : far_step ROps 2 i2 (O, i0, (O, z), (O, z)) = (2%nat, i2, (O, i0), (O, z))) by (unfold far_step, gtb, i0, i2, z; cbn [fst snd ltb zero ROps]; unfold Rltb; destruct (Rlt_dec 1 2); [reflexivity|lra]).
      change (bind (bind (Ok (far_step ROps 0 i0 (O, z, (O, z), (O, z)))) (fun s => bind (Ok (far_step ROps 1 z s)) (fun s => bind (Ok (far_step ROps 2 i2 s)) (fun s => Ok s))))
        (fun s => let '(a, b, c) := s in Ok (fst a, fst b, fst c)) = Ok (2, 0, 0)%nat).
      rewrite S1. cbn [bind]. rewrite S2. cbn [bind]. rewrite S3. cbn [bind fst snd]. reflexivity.
    + unfold pos, org. cbn [m_points nth]. intros X. apply (f_equal px) in X. rewrite !px_P in X. lra.
Qed.
Print Assumptions C49_refuted.
Example C49_example : let D := fun i => dist (nth i (m_points sqm) org) org in 0 < D 1%nat /\ 0 < D 2%nat /\ 0 < D 3%nat.
Proof.
  cbn [m_points sqm nth]. repeat split; (apply org_pos; unfold org; intros X; pose proof (f_equal px X) as X1; pose proof (f_equal py X) as X2; rewrite !px_P in X1; rewrite !py_P in X2; lra).
Qed.

(** ** C59: the problems are well posed *)
Theorem C59_conductor : forall (A : Type) (m : mesh ROps A) (ps : list A) (sigma : A -> R) (l : list (nat * R)), fem_ready m ps -> all_used m ->
  (forall p, In p ps -> 0 < sigma p) -> 0 < m_depth m -> NoDup (map fst l) -> (forall p, In p l -> (fst p < length (m_points m))%nat) -> pins m (map fst l) ->
  exists S S' x, cd_getFemSystem ROps A sigma m = Ok S /\ dirichlet_all S l = Ok S' /\ valid_system S' /\ all_diag_touched (sA R S') /\ spd (sA R S') /\
    solves S' x /\ (forall y, solves S' y -> forall i, (i < length (m_points m))%nat -> y i = x i) /\
    (forall id v, In (id, v) l -> x id = v) /\ (forall i, (i < length (m_points m))%nat -> ~ In i (map fst l) -> row_eq S x i) /\
    sumn (length (m_points m)) (fun i => sumn (length (m_points m)) (fun j => value 0 (sA R S) i j * x j)) = 0.
Proof. exact cd_unique. Qed.
Print Assumptions C59_conductor.
Theorem C59_magnetostatic : forall (A : Type) (m : mesh ROps A) (ps : list A) (curJ : A -> R) (mag : A -> pt) es S a b c, fem_ready m ps -> all_used m ->
  ms_getFemSystem ROps A curJ mag m es = Ok S -> farthest ROps (m_points m) = Ok (a, b, c) -> NoDup [a; b; c] ->
  (a < length (m_points m))%nat -> (b < length (m_points m))%nat -> (c < length (m_points m))%nat -> pins m [a; b; c] ->
  forall mu, length mu = length (m_tris m) -> (forall i, (i < length mu)%nat -> 0 < vget mu i) ->
  exists S' x, addDirichletInfinite ROps A m S = Ok S' /\ valid_system S' /\ length (sb _ S') = length (m_points m) /\ sys_ok S' mu /\
    all_diag_touched (sA _ S') /\ spd (sA R (sys_eval S' mu)) /\ solves (sys_eval S' mu) x /\
    forall y, solves (sys_eval S' mu) y -> forall i, (i < length (m_points m))%nat -> y i = x i.
Proof.
  intros A m ps curJ mag es S a b c RD U E F ND La Lb Lc HP mu Lm Pm.
  destruct (ms_pinned A m ps curJ mag es S a b c RD U E F ND La Lb Lc HP mu Lm Pm) as [S' [H1 [H2 [H3 [H4 [H5 H6]]]]]].
  destruct (spd_solution (sys_eval S' mu) (eval_valid S' mu H2) H6) as [x [X UN]]. exists S', x. repeat (split; [solve [auto]|]). intros y Hy i Hi. apply UN; auto. rewrite eval_dim, H3. auto.
Qed.
Print Assumptions C59_magnetostatic.
(** no node held: the system is singular and its solutions are defined up to a constant *)
Theorem C59_nothing_held_is_singular : forall (A : Type) (m : mesh ROps A) (ps : list A) (sigma : A -> R) S, fem_ready m ps -> all_used m -> cd_getFemSystem ROps A sigma m = Ok S ->
  (0 < length (m_points m))%nat -> ~ spd (sA R S) /\ forall x k, solves S x -> solves S (fun i => x i + k).
Proof.
  intros A m ps sigma S RD U E Hn. destruct (cd_energy m ps sigma RD U) as [S0 [E0 [VS [LS [_ [_ [RS VB]]]]]]]. rewrite E in E0. injection E0 as <-. split.
  - intros SP. unfold spd in SP. destruct VS as [_ [C _]]. change (cm (sA R S) = sdim S) in C. rewrite C, LS in SP.
    assert (Q : 0 < quad (length (m_points m)) (value 0 (sA R S)) (fun _ => 1)) by (apply SP; exists O; split; auto; lra).
    assert (Q0 : quad (length (m_points m)) (value 0 (sA R S)) (fun _ => 1) = 0).
    { unfold quad. rewrite (sumn_ext (length (m_points m)) _ (fun i => 0)).
      - clear. induction (length (m_points m)) as [|n IH]; cbn [sumn]; [reflexivity|rewrite IH; ring].
      - intros i Hi. refine (eq_trans _ (RS i Hi)). apply sumn_ext. intros. ring. }
    lra.
  - intros x k H i Hi. specialize (H i Hi). unfold row_eq in *. rewrite LS in *.
    rewrite (sumn_ext (length (m_points m)) _ (fun j => value 0 (sA R S) i j * x j + k * value 0 (sA R S) i j)) by (intros; ring). rewrite sumn_plus, sumn_scal, H, RS by auto. ring.
Qed.
Print Assumptions C59_nothing_held_is_singular.
Example C59_example : fem_ready sqm [3; 5] /\ all_used sqm /\ pins sqm (map fst [(0, 1); (2, 5)]%nat) /\ (exists a b c, farthest ROps (m_points sqm) = Ok (a, b, c) /\ NoDup [a; b; c] /\ pins sqm [a; b; c]).
Proof.
  assert (L0 : forall u v, In u (corners (0, 1, 2)%nat) -> In v (corners (0, 1, 2)%nat) -> linked sqm u v).
  { intros u v Hu Hv. apply (linked_step sqm u u v (0, 1, 2)%nat); auto; [constructor|cbn; auto]. }
  assert (L1 : forall u v, In u (corners (0, 2, 3)%nat) -> In v (corners (0, 2, 3)%nat) -> linked sqm u v).
  { intros u v Hu Hv. apply (linked_step sqm u u v (0, 2, 3)%nat); auto; [constructor|cbn; auto]. }
  split; [apply sqm_ready|]. split; [apply sqm_ready|]. split.
  - intros v Hv. exists O. split; [cbn; auto|]. cbn in Hv. destruct v as [|[|[|[|v]]]]; try lia; [apply L0|apply L0|apply L0|apply L1]; unfold corners, t0, t1, t2; cbn; auto.
  - destruct (C49_three_farthest (m_points sqm)) as [a [b [c [E [La [Lb [Lc [N1 [N2 [N3 [_ [_ [PC _]]]]]]]]]]]]].
    { destruct C49_example as [D1 [D2 D3]]. exists 1%nat, 2%nat, 3%nat. cbn [length m_points sqm]. repeat split; auto; lia. }
    exists a, b, c. split; auto. split.
    + constructor; [cbn; intuition|]. constructor; [cbn; intuition|]. constructor; [cbn; intuition|constructor].
    + intros v Hv. cbn [length m_points sqm] in La, Lb, Lc, Hv.
      assert (NE : forall x y z : nat, (x < 4)%nat -> (y < 4)%nat -> (z < 4)%nat -> x <> y -> x <> z -> y <> z -> x = 0%nat \/ x = 2%nat \/ y = 0%nat \/ y = 2%nat \/ z = 0%nat \/ z = 2%nat) by (intros; lia).
      assert (HUB : forall h, (h = 0%nat \/ h = 2%nat) -> linked sqm h v).
      { intros h [-> | ->]; destruct v as [|[|[|[|v]]]]; try lia; try (apply L0; unfold corners, t0, t1, t2; cbn; auto; fail); apply L1; unfold corners, t0, t1, t2; cbn; auto. }
      destruct (NE a b c) as [H|[H|[H|[H|[H|H]]]]]; auto; [exists a|exists a|exists b|exists b|exists c|exists c]; (split; [cbn; auto|apply HUB; auto]).
Qed.
