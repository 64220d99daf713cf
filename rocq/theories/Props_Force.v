(** Properties C47, C48 and C68 to C71.  Vocabulary in ForceSpec.v, model in ForceModel.v. *)
From Coq Require Import String.
From Coq Require Import List Arith ZArith NArith Bool Lia Permutation Reals Lra.
From Coq Require Import Floats.SpecFloat.
From Verif Require Import Base SumR AlgebraModel AlgebraSpec SolversModel SolversSpec GeometryModel GeometrySpec Geometry_proofs DrawingModel DrawingSpec MeshModel MeshSpec
  ForceModel ForceSpec Solvers_bridge Algebra_bridge Coo_proofs Edges_proofs Hold_proofs Shell_proofs Polygon_proofs Integral_proofs Props_Mesh Props_Material.
Import ListNotations.
Local Open Scope R_scope.

(** ** C47: the nodes with a prescribed weight *)
(** the matrix does not depend on the order in which the entries are visited *)
Theorem C47_matrix : forall M fl, hold_ready M fl -> forall l A b, eliminated M fl l A b -> valid_coo A /\ all_diag_touched A /\ cm A = cm M /\ length b = cm M /\
  forall i j, (i <= j < cm M)%nat -> value 0 A i j = if held fl i then (if Nat.eqb i j then 1 else 0) else value 0 M i j.
Proof.
  intros M fl RD l A b E. destruct (run_matrix M fl RD l A b E) as [H1 [H2 [H3 H4]]]. destruct (run_det M fl RD l A b E) as [L _]. auto.
Qed.
Print Assumptions C47_matrix.
(** the right-hand sides: every order keeps some of the contributions to held nodes, and every choice of them is kept by some order *)
Theorem C47_outcomes : forall M fl, hold_ready M fl ->
  (forall l, Permutation l (elems M) -> exists A b, eliminated M fl l A b) /\
  (forall l A b, eliminated M fl l A b -> exists S, forall r, (r < cm M)%nat -> vget b r = rhs_with M fl S r) /\
  (forall S, exists l A b, eliminated M fl l A b /\ forall r, (r < cm M)%nat -> vget b r = rhs_with M fl S r).
Proof.
  intros M fl RD. split; [|split].
  - intros l P. destruct (run_any M fl RD l P) as [A [b [H _]]]. exists A, b. auto.
  - intros l A b. apply rhs_lost; auto.
  - intros S. apply rhs_reached; auto.
Qed.
Print Assumptions C47_outcomes.
(** the system is the same for all orders exactly when no entry couples a node of the body with a held node of a higher number *)
Theorem C47_independent_iff : forall M fl, hold_ready M fl ->
  ((forall l1 l2 A1 A2 b1 b2, eliminated M fl l1 A1 b1 -> eliminated M fl l2 A2 b2 -> csr_build 0 A1 = csr_build 0 A2 /\ b1 = b2) <->
   (forall c r, (c < r < cm M)%nat -> one_node fl c = true -> held fl r = true -> value 0 M c r = 0)).
Proof.
  intros M fl RD. split.
  - intros H. apply (proj1 (indep_iff M fl RD)). intros l1 l2 A1 A2 b1 b2 E1 E2. apply (H l1 l2 A1 A2 b1 b2 E1 E2).
  - intros H l1 l2 A1 A2 b1 b2. apply same_input; auto.
Qed.
Print Assumptions C47_independent_iff.
(** with that, and free nodes uncoupled to held nodes of a higher number, the solution takes the prescribed values and satisfies
    the original equations in the free rows.  Missing for the claim: the assembled matrices need not meet the condition *)
Theorem C47_prescribed_partial : forall M fl, hold_ready M fl ->
  (forall c r, (c < r < cm M)%nat -> held fl r = true -> zero_node fl c = true \/ value 0 M c r = 0) ->
  forall l A b x, eliminated M fl l A b -> is_solution A b x ->
  (forall i, (i < cm M)%nat -> held fl i = true -> vget x i = target fl i) /\
  (forall i, (i < cm M)%nat -> held fl i = false -> sumn (cm M) (fun j => value 0 M i j * vget x j) = 0).
Proof. intros M fl RD. apply solution_values; auto. Qed.
Print Assumptions C47_prescribed_partial.

(** then the weights are the same for all orders *)
Theorem C47_weights : forall A (m : mesh ROps A) B a K sh1 sh2 M, (forall l, Permutation (sh1 l) l) -> (forall l, Permutation (sh2 l) l) ->
  is_u32 (length (m_points m)) -> length (as_flags a) = length (m_points m) -> shell_matrix ROps A K m B a = Ok M -> all_diag_touched M ->
  (forall c r, (c < r < length (m_points m))%nat -> one_node (as_flags a) c = true -> held (as_flags a) r = true -> value 0 M c r = 0) ->
  weights ROps A sh1 K m B a = weights ROps A sh2 K m B a.
Proof. exact weights_same. Qed.
Print Assumptions C47_weights.
Lemma hold_len : forall fl l b l' b', hold_loop ROps fl l b = Ok (l', b') -> length l' = length l.
Proof.
  intros fl. induction l as [|[k v] l IH]; intros b l' b' H; cbn [hold_loop] in H; [injection H as <- <-; auto|].
  repeat match type of H with bind ?e _ = _ => destruct e as [?| | |] eqn:?; try discriminate H; cbn [bind] in H end.
  repeat match goal with p : (_ * _)%type |- _ => destruct p end. cbn [bind] in H.
  repeat match type of H with bind ?e _ = _ => destruct e as [?| | |] eqn:?; try discriminate H; cbn [bind] in H end.
  repeat match goal with p : (_ * _)%type |- _ => destruct p end.
  injection H as <- <-. cbn [length]. f_equal. eapply IH; eauto.
Qed.
Lemma T100 : div ROps (one ROps) (ofZ ROps (10 ^ 100)) = Ok (1 / 10 ^ 100).
Proof.
  assert (Z : IZR (10 ^ 100) = 10 ^ 100) by (change (10 ^ 100)%Z with (10 ^ Z.of_nat 100)%Z; symmetry; apply pow_IZR).
  cbn [div one ofZ ROps]. rewrite Z. apply Rdivr_ok. apply pow_nonzero. lra.
Qed.
(** and they come from at most 100 steps of the SSOR solver, started at zero; when it stops earlier the residual is below 1e-100 *)
Theorem C47_accuracy : forall A (m : mesh ROps A) B a K sh M g, (forall l, Permutation (sh l) l) ->
  is_u32 (length (m_points m)) -> length (as_flags a) = length (m_points m) -> shell_matrix ROps A K m B a = Ok M -> all_diag_touched M -> fits M ->
  weights ROps A sh K m B a = Ok g ->
  exists M' b C st, eliminated M (as_flags a) (sh (elems M)) M' b /\ csr_build 0 M' = Ok C /\
    run ROps (SsorCG (3 / 2)) C b (repeat 0 (length (m_points m))) (1 / 10 ^ 100) 100 = Ok (g, st) /\ length g = length (m_points m) /\
    (st <> None -> residual_norm M' b g < 1 / 10 ^ 100).
Proof.
  intros A m B a K sh M g SP U LF EM DT FT H. destruct (matrix_frame0 A m B a K U M EM) as [W C].
  assert (RD : hold_ready M (as_flags a)) by (split; [auto|split; [rewrite C; auto|split; [auto|rewrite C; auto]]]).
  destruct (run_any M _ RD (sh (elems M)) (SP _)) as [A1 [b1 [E1 _]]]. pose proof (C47_matrix M _ RD _ _ _ E1) as [W1 [D1 [C1 [L1 _]]]].
  pose proof E1 as [_ [_ E1']]. rewrite C in E1'.
  pose proof T100 as HT. assert (POS : 0 < 1 / 10 ^ 100) by (apply Rdiv_lt_0_compat; [lra|apply pow_lt; lra]).
  unfold weights in H. revert POS HT H. generalize (1 / 10 ^ 100). generalize (10 ^ 100)%Z. intros z tol POS HT H.
  rewrite EM in H. cbn [bind] in H. change (repeat (zero ROps) (length (m_points m))) with (repeat 0 (length (m_points m))) in H. rewrite E1' in H. cbn [bind] in H.
  replace (@mkCoo (T ROps) (elems A1) (cm M)) with A1 in H by (destruct A1; cbn in *; congruence).
  change (zero ROps) with 0 in H. change (T ROps) with R in H. destruct (csr_build 0 A1) as [Cs| | |] eqn:EC; try discriminate H. cbn [bind] in H.
  change (div ROps (ofZ ROps 3) (ofZ ROps 2)) with (Rdivr 3 2) in H. rewrite Rdivr_ok in H by lra. cbn [bind] in H.
  rewrite HT in H. cbn [bind] in H.
  destruct (ssor_pcg ROps Cs b1 (zeros ROps (length (m_points m))) (3 / 2) tol 100) as [[g' st]| | |] eqn:ES; try discriminate H. cbn [bind fst] in H. assert (g' = g) as -> by congruence.
  exists A1, b1, Cs, st. split; auto. split; auto. split; [exact ES|].
  assert (F1 : fits A1) by (destruct FT as [FT1 FT2]; split; [rewrite C1; auto|pose proof (hold_len _ _ _ _ _ E1') as HL; pose proof (Permutation_length (SP (elems M))) as PL; cbn in *; congruence]).
  assert (RA : ready 0 A1 Cs) by (split; [auto|split; [auto|split; auto]]).
  destruct (stops_residual A1 Cs b1 (repeat 0 (length (m_points m))) RA) with (s := SsorCG (3 / 2)) (e := tol) (k := 100%nat) (x' := g) (st := st) as [Lg Sg]; auto.
  { congruence. }
  { rewrite repeat_length. congruence. }
  split; [congruence|]. intros Ns. destruct st as [i|]; [|congruence]. rewrite Rabs_right in Sg by lra. auto.
Qed.
Print Assumptions C47_accuracy.

(** *** two nodes, the second one in the body: the solution there is 2 and not 1 *)
Definition free_node : flags := (false, false, true, false).
Definition body_node : flags := (true, true, true, false).
Definition far_node : flags := (false, false, false, false).
Definition two (c : R) : coo R := mkCoo [(key 0 0, 2); (key 0 1, c); (key 1 1, 2)] 2.
Lemma two_keys : key 0 0 <> key 0 1 /\ key 0 1 <> key 1 1 /\ key 0 0 <> key 1 1.
Proof. repeat split; vm_compute; discriminate. Qed.
Lemma two_ready : forall c f g, hold_ready (two c) [f; g].
Proof.
  intros c f g. pose proof two_keys as [K1 [K2 K3]]. split; [|split; [|split]]; auto.
  - split; cbn [two elems map fst].
    + constructor; [|constructor; [|constructor; [|constructor]]]; cbn; intuition.
    + intros k v [E|[E|[E|[]]]]; injection E as <- <-; [exists 0%nat, 0%nat|exists 0%nat, 1%nat|exists 1%nat, 1%nat]; cbn; repeat split; auto; lia.
  - unfold is_u32; cbn. lia.
  - intros i Hi. cbn [two cm elems map fst] in *. assert (C : (i = 0 \/ i = 1)%nat) by lia. destruct C as [-> | ->]; cbn; auto.
Qed.
Lemma two_value : forall c, value 0 (two c) 0 0 = 2 /\ value 0 (two c) 0 1 = c /\ value 0 (two c) 1 1 = 2.
Proof. intros c. repeat split; reflexivity. Qed.
Example C47_condition_met : hold_ready (two 0) [body_node; body_node] /\
  (forall c r, (c < r < cm (two 0))%nat -> one_node [body_node; body_node] c = true -> held [body_node; body_node] r = true -> value 0 (two 0) c r = 0) /\
  hold_ready (two 1) [far_node; body_node] /\
  (forall c r, (c < r < cm (two 1))%nat -> held [far_node; body_node] r = true -> zero_node [far_node; body_node] c = true \/ value 0 (two 1) c r = 0) /\
  exists A b, eliminated (two 1) [far_node; body_node] (elems (two 1)) A b.
Proof.
  split; [apply two_ready|]. split; [|split; [apply two_ready|split]].
  - intros c r H _ _. cbn in H. assert (c = 0 /\ r = 1)%nat as [-> ->] by lia. reflexivity.
  - intros c r H _. cbn in H. assert (c = 0 /\ r = 1)%nat as [-> ->] by lia. left. reflexivity.
  - exists (mkCoo [(key 0 0, 1); (key 0 1, 0); (key 1 1, 1)] 2), [0; 1]. split; [apply Permutation_refl|split; reflexivity].
Qed.
Theorem C47_prescribed_refuted : exists M fl l A b x, hold_ready M fl /\ eliminated M fl l A b /\ is_solution A b x /\
  exists i, (i < cm M)%nat /\ held fl i = true /\ vget x i <> target fl i.
Proof.
  exists (two 1), [free_node; body_node], (elems (two 1)), (mkCoo [(key 0 0, 2); (key 0 1, 1); (key 1 1, 1)] 2), [0; 1], [-1; 2].
  split; [apply two_ready|]. split; [split; [apply Permutation_refl|split; reflexivity]|]. split.
  - intros i Hi. cbn [cm] in Hi. assert (C : (i = 0 \/ i = 1)%nat) by lia. destruct C as [-> | ->]; unfold row, vget; cbn [nth]; unfold sumn, value; cbn; lra.
  - exists 1%nat. split; [cbn; lia|]. split; [reflexivity|]. unfold vget, target. cbn. lra.
Qed.
Print Assumptions C47_prescribed_refuted.

(** *** in binary64 the force itself changes with the order *)
Definition V (a b : Z) : vec FOps := @mkV FOps (fq a 1) (fq b 1).
(** a body (triangle) in air (a triangle around it), the outside closed over one far vertex: 7 vertices, 10 triangles *)
Definition body_tris : list tri := [(0, 1, 2); (0, 3, 4); (0, 4, 1); (1, 4, 5); (1, 5, 2); (2, 5, 3); (2, 3, 0); (6, 3, 4); (6, 4, 5); (6, 5, 3)]%nat.
Definition body_outline : list (vec FOps) := [V 0 0; V 2 0; V 0 2].
Definition air_outline : list (vec FOps) := [V (-2) (-2); V 8 (-2); V (-2) 8].
Definition body_with (polys : list (list (vec FOps))) : mesh FOps nat :=
  @mkMesh FOps nat (V 0 0) (fq 9 1) (fq 1 1000) (fq 1 1) (body_outline ++ air_outline ++ [V 100 7]) (repeat false 7) body_tris (repeat O 10)
    (mkD [7%nat] [(@mkV FOps (fq 1 2) (fq 1 2), O)] [] [] polys).
Definition body_mesh : mesh FOps nat := body_with [air_outline; body_outline].
Definition mixed_field (k : Z) : list (vec FOps) :=
  map (fun i => @mkV FOps (fq (k * (3 + Z.of_nat i * Z.of_nat i mod 7)) 10) (fq (k * (Z.of_nat (i mod 5) - 2)) 10)) (seq 0 10).
Definition fmu0 : f64 := fq 1256637061435917 1000000000000000000000.
Definition force_of (sh : list (N * f64) -> list (N * f64)) (m : mesh FOps nat) (B : list (vec FOps)) : res (vec FOps) :=
  computeForceIntegrals FOps nat O (fq 1 (10 ^ 308)) fmu0 sh m (fq 1 1) B (@mkV FOps (fq 1 2) (fq 1 2)).
Definition check_force (P : f64 -> f64 -> bool) (r : res (vec FOps)) : bool := match r with Ok f => P (vx f) (vy f) | _ => false end.
Lemma check_force_spec : forall P r, check_force P r = true -> exists f, r = Ok f /\ P (vx f) (vy f) = true.
Proof. intros P [f|s|s|s] H; try discriminate H. exists f. auto. Qed.
Lemma closed_b : forall ts, forallb (fun t => forallb (fun u => forallb (fun v => Nat.eqb u v || Nat.eqb (length (sharing ts u v)) 2) (corners t)) (corners t)) ts = true -> closed_surface ts.
Proof.
  intros ts H t u v It Iu Iv N. rewrite forallb_forall in H. specialize (H t It). rewrite forallb_forall in H. specialize (H u Iu). rewrite forallb_forall in H. specialize (H v Iv).
  apply orb_true_iff in H. destruct H as [H|H]; apply Nat.eqb_eq in H; auto. contradiction.
Qed.
Lemma body_closed : closed_surface body_tris.
Proof. apply closed_b. vm_compute. reflexivity. Qed.
Lemma order_kept : check_force (fun x _ => SFltb x (fq (-1000000) 1)) (force_of (fun l => l) body_mesh (mixed_field 1)) = true.
Proof. vm_compute. reflexivity. Qed.
Lemma order_reversed : check_force (fun x y => SFltb (fq 20000 1) x && SFltb y (fq 70000 1)) (force_of (fun l => rev l) body_mesh (mixed_field 1)) = true.
Proof. vm_compute. reflexivity. Qed.
Theorem C47_refuted : exists (sh1 sh2 : list (N * f64) -> list (N * f64)) m B f1 f2, (forall l, Permutation (sh1 l) l) /\ (forall l, Permutation (sh2 l) l) /\ closed_surface (m_tris m) /\
  force_of sh1 m B = Ok f1 /\ force_of sh2 m B = Ok f2 /\ SFltb (vx f1) (fq (-1000000) 1) = true /\ SFltb (fq 20000 1) (vx f2) = true.
Proof.
  destruct (check_force_spec _ _ order_kept) as [f1 [E1 H1]]. destruct (check_force_spec _ _ order_reversed) as [f2 [E2 H2]]. apply andb_true_iff in H2. destruct H2 as [H2 _].
  exists (fun l => l), (fun l => rev l), body_mesh, (mixed_field 1), f1, f2. split; [auto|]. split; [intros l; apply Permutation_sym, Permutation_rev|]. split; [exact body_closed|]. auto.
Qed.
Print Assumptions C47_refuted.

(** ** C48: the triangles on the two sides of an edge *)
(** on a closed surface every neighbour is a triangle of the mesh, and the errors are those of the field jumps *)
Theorem C48_closed : forall A (m : mesh ROps A) (B : list pt), closed_surface (m_tris m) -> Forall (tri_in (length (m_points m))) (m_tris m) -> Forall three_corners (m_tris m) ->
  m_tris m <> [] -> length B = length (m_tris m) ->
  exists errs, elem_errors ROps A m B = Ok errs /\ length errs = length (m_tris m) /\ forall i, (i < length (m_tris m))%nat -> field_error m B i (nth i errs 0).
Proof. exact closed_ok. Qed.
Print Assumptions C48_closed.
(** a side that belongs to one triangle, or to more than two, makes the computation read or write outside an array *)
Theorem C48_open : forall A (m : mesh ROps A) (B : list pt) t u v, Forall (tri_in (length (m_points m))) (m_tris m) -> Forall three_corners (m_tris m) ->
  In t (m_tris m) -> In u (corners t) -> In v (corners t) -> u <> v -> length (sharing (m_tris m) u v) <> 2%nat -> is_ub (elem_errors ROps A m B).
Proof. exact open_ub. Qed.
Print Assumptions C48_open.
(** so it does for every triangulation of a plane region, and no force, torque or stress is returned *)
Theorem C48_planar_refuted : (exists m : mesh ROps R, conforming m /\ m_tris m <> []) /\
  forall A (m : mesh ROps A), conforming m -> m_tris m <> [] -> forall pdef dm mu0 sh depth B p c, is_ub (elem_errors ROps A m B) /\
  ~ is_ok (computeForceIntegrals ROps A pdef dm mu0 sh m depth B p) /\ ~ is_ok (computeTorqueIntegral ROps A pdef dm mu0 sh m depth B p c) /\
  ~ is_ok (computeStressIntegral ROps A pdef dm mu0 sh m depth B p c).
Proof.
  split; [exists fan; split; [apply fan_conforming|discriminate]|].
  intros A m Cf NE pdef dm mu0 sh depth B p c. pose proof (planar_ub A m Cf NE B) as U. split; auto.
  assert (G : forall a, get_assets ROps A pdef dm m B p <> Ok a).
  { intros a E. unfold get_assets in E. destruct (find_regions ROps A pdef m p) as [[[g outer] holes]|s|s|s]; try discriminate E. cbn [bind] in E.
    destruct (adj_ids ROps A m) as [ids|s|s|s]; try discriminate E. cbn [bind] in E. destruct U as [s U]. rewrite U in E. discriminate E. }
  split; [|split]; intros [r E]; [unfold computeForceIntegrals in E|unfold computeTorqueIntegral in E|unfold computeStressIntegral in E];
    destruct (get_assets ROps A pdef dm m B p) as [a|s|s|s] eqn:EA; try discriminate E; apply (G a); reflexivity.
Qed.
Print Assumptions C48_planar_refuted.
(** *** a closed surface: two squares glued along their outline *)
Definition fan_of (c a : nat) : list tri := map (fun i => (c, a + i, a + (i + 1) mod 4)%nat) (seq 0 4).
Definition pillow : mesh ROps R := mkMesh org 0 0 1 [P 0 0; P 2 0; P 2 2; P 0 2; P 1 1; P 9 9] [] (fan_of 4 0 ++ fan_of 5 0) (repeat O 8) (mkD [1] [] [] [] []).
Example C48_closed_met : exists m : mesh ROps R, exists B : list pt, closed_surface (m_tris m) /\ Forall (tri_in (length (m_points m))) (m_tris m) /\ Forall three_corners (m_tris m) /\
  m_tris m <> [] /\ length B = length (m_tris m).
Proof.
  exists pillow, (map (fun i => P (INR i) 1) (seq 0 8)). split; [apply closed_b; vm_compute; reflexivity|]. split; [|split; [|split; [discriminate|reflexivity]]].
  - cbn. repeat constructor; unfold t0, t1, t2; cbn; lia.
  - unfold three_corners. cbn. repeat constructor; unfold t0, t1, t2; cbn; lia.
Qed.
Example C48_open_met : exists t u v, In t (m_tris fan) /\ In u (corners t) /\ In v (corners t) /\ u <> v /\ length (sharing (m_tris fan) u v) <> 2%nat.
Proof. exists (0, 1, 2)%nat, 0%nat, 1%nat. repeat split; [left; reflexivity|left; reflexivity|right; left; reflexivity|discriminate|vm_compute; discriminate]. Qed.

(** ** C68: the region around a body *)
(** a force, torque or stress is only returned when exactly one outline of the drawing encloses the body *)
Theorem C68_exactly_one : forall o A pdef dm mu0 sh (m : mesh o A) depth B p c,
  is_ok (computeForceIntegrals o A pdef dm mu0 sh m depth B p) \/ is_ok (computeTorqueIntegral o A pdef dm mu0 sh m depth B p c) \/ is_ok (computeStressIntegral o A pdef dm mu0 sh m depth B p c) ->
  exists g h, getInnermostPolygon o A m p = Ok g /\ In h (polygons (m_drawing m)) /\ encloses o h g /\
    forall i j k k', nth_error (polygons (m_drawing m)) i = Some k -> nth_error (polygons (m_drawing m)) j = Some k' -> encloses o k g -> encloses o k' g -> i = j.
Proof.
  intros o A pdef dm mu0 sh m depth B p c H. assert (G : exists a, get_assets o A pdef dm m B p = Ok a).
  { destruct H as [[r E]|[[r E]|[r E]]]; [unfold computeForceIntegrals in E|unfold computeTorqueIntegral in E|unfold computeStressIntegral in E];
      destruct (get_assets o A pdef dm m B p) as [a|s|s|s]; try discriminate E; exists a; reflexivity. }
  destruct G as [a E]. unfold get_assets in E. destruct (find_regions o A pdef m p) as [r|s|s|s] eqn:ER; try discriminate E. eapply regions_one; exact ER.
Qed.
Print Assumptions C68_exactly_one.
(** with exact arithmetic, what happens otherwise: without an outline around the body, and with several of which one contains no other,
    the behaviour is undefined; with several that all contain another one the call ends with the error *)
Lemma enclosing_R : forall g l, exists f : list pt -> bool, (forall h, f h = true <-> encloses ROps h g) /\ enclosing ROps g l = Ok (filter f l).
Proof.
  intros g l. exists (fun h => poly_contains_poly ROps h g && match poly_neqb ROps h g with Ok b => b | _ => false end). split.
  - intros h. destruct (poly_neqb_R h g) as [b [E _]]. unfold encloses. rewrite E. rewrite andb_true_iff. split; intros [H1 H2]; split; auto; congruence.
  - induction l as [|h l IH]; cbn [enclosing filter]; auto. destruct (poly_neqb_R h g) as [b [E _]]. rewrite E.
    destruct (poly_contains_poly ROps h g); cbn [andb bind]; rewrite IH; cbn [bind]; auto.
Qed.
Lemma removal_pass_R : forall all l, ((exists h, In h l /\ minimal all h) /\ is_ub (removal_pass ROps all l)) \/ ((forall h, In h l -> ~ minimal all h) /\ removal_pass ROps all l = Ok tt).
Proof.
  intros all l. induction l as [|h l IH]; cbn [removal_pass]; [right; split; auto; intros h []|].
  destruct (is_magnet_R h all) as [b [E Hb]]. rewrite E. cbn [bind]. destruct b.
  - left. split; [exists h; split; [left; auto|apply Hb; auto]|eexists; reflexivity].
  - destruct IH as [[[k [K1 K2]] U]|[N U]].
    + left. split; auto. exists k. split; [right|]; auto.
    + right. split; auto. intros k [<-|K]; auto. intros M. apply Hb in M. discriminate M.
Qed.
Lemma removal_R : forall n all, (2 <= length all)%nat ->
  ((exists h, In h all /\ minimal all h) /\ is_ub (removal ROps (S n) all)) \/ ((forall h, In h all -> ~ minimal all h) /\ is_throw (removal ROps (S n) all)).
Proof.
  intros n all L. assert (Q : Nat.leb (length all) 1 = false) by (apply Nat.leb_gt; lia).
  induction n as [|n IH].
  - cbn [removal]. rewrite Q. destruct (removal_pass_R all all) as [[X [s E]]|[X E]]; rewrite E; cbn [bind]; [left|right]; split; auto; eexists; reflexivity.
  - change (removal ROps (S (S n)) all) with (if Nat.leb (length all) 1 then Ok all else (_ <- removal_pass ROps all all ;; removal ROps (S n) all)). rewrite Q.
    destruct (removal_pass_R all all) as [[X [s E]]|[X E]]; rewrite E; cbn [bind]; [left; split; auto; eexists; reflexivity|]. auto.
Qed.
Definition all_three {A} (pdef : A) dm mu0 sh (m : mesh ROps A) depth B p c (Q : forall X, res X -> Prop) : Prop :=
  Q _ (computeForceIntegrals ROps A pdef dm mu0 sh m depth B p) /\ Q _ (computeTorqueIntegral ROps A pdef dm mu0 sh m depth B p c) /\ Q _ (computeStressIntegral ROps A pdef dm mu0 sh m depth B p c).
Theorem C68_otherwise : forall A (pdef : A) dm mu0 sh (m : mesh ROps A) depth B p c,
  (~ is_ok (getInnermostPolygon ROps A m p) -> all_three pdef dm mu0 sh m depth B p c (fun X r => is_throw r)) /\
  forall g, getInnermostPolygon ROps A m p = Ok g -> exists f : list pt -> bool, (forall h, f h = true <-> encloses ROps h g) /\
    let l := filter f (polygons (m_drawing m)) in
    (l = [] -> all_three pdef dm mu0 sh m depth B p c (fun X r => is_ub r)) /\
    ((2 <= length l)%nat -> (exists h, In h l /\ minimal l h) -> all_three pdef dm mu0 sh m depth B p c (fun X r => is_ub r)) /\
    ((2 <= length l)%nat -> (forall h, In h l -> ~ minimal l h) -> all_three pdef dm mu0 sh m depth B p c (fun X r => is_throw r)).
Proof.
  intros A pdef dm mu0 sh m depth B p c.
  assert (U : is_ub (find_regions ROps A pdef m p) -> all_three pdef dm mu0 sh m depth B p c (fun X r => is_ub r)).
  { intros [s E]. unfold all_three, computeForceIntegrals, computeTorqueIntegral, computeStressIntegral, get_assets. rewrite E. cbn [bind]. repeat split; eexists; reflexivity. }
  assert (W : is_throw (find_regions ROps A pdef m p) -> all_three pdef dm mu0 sh m depth B p c (fun X r => is_throw r)).
  { intros [s E]. unfold all_three, computeForceIntegrals, computeTorqueIntegral, computeStressIntegral, get_assets. rewrite E. cbn [bind]. repeat split; eexists; reflexivity. }
  split.
  - intros N. apply W. unfold find_regions, getInnermostPolygon in *. destruct (filter _ _) as [|g1 [|g2 F]].
    + eexists. reflexivity.
    + exfalso. apply N. eexists. reflexivity.
    + destruct (first_minimal_R (g1 :: g2 :: F) (g1 :: g2 :: F)) as [g [E _]]. exfalso. apply N. exists g. exact E.
  - intros g G. destruct (enclosing_R g (polygons (m_drawing m))) as [f [Hf E]]. exists f. split; auto. cbv zeta. split; [|split].
    + intros L. apply U. unfold find_regions. rewrite G. cbn [bind]. rewrite E, L. cbn. eexists. reflexivity.
    + intros L [h [H1 H2]]. apply U. unfold find_regions. rewrite G. cbn [bind]. rewrite E. cbn [bind].
      destruct (removal_R 100 _ L) as [[_ [s X]]|[X _]]; [|exfalso; apply (X h); auto]. rewrite X. cbn [bind]. eexists. reflexivity.
    + intros L H1. apply W. unfold find_regions. rewrite G. cbn [bind]. rewrite E. cbn [bind].
      destruct (removal_R 100 _ L) as [[[h [H2 H3]] _]|[_ [s X]]]; [exfalso; apply (H1 h); auto|]. rewrite X. cbn [bind]. eexists. reflexivity.
Qed.
Print Assumptions C68_otherwise.
Definition is_ub_b {X} (r : res X) : bool := match r with UB _ => true | _ => false end.
Lemma is_ub_spec : forall X (r : res X), is_ub_b r = true -> is_ub r.
Proof. intros X [x|s|s|s] H; try discriminate H. exists s. reflexivity. Qed.
Lemma nested_ub : is_ub_b (force_of (fun l => l) (body_with [air_outline; [V (-1) (-1); V 5 (-1); V (-1) 5]; body_outline]) (mixed_field 1)) = true.
Proof. vm_compute. reflexivity. Qed.
(** the body of the example above ([body_mesh] is [body_with [air_outline; body_outline]]), with a second outline around it *)
Theorem C68_refuted : closed_surface body_tris /\ (exists f, force_of (fun l => l) body_mesh (mixed_field 1) = Ok f) /\
  is_ub (force_of (fun l => l) (body_with [air_outline; [V (-1) (-1); V 5 (-1); V (-1) 5]; body_outline]) (mixed_field 1)).
Proof.
  split; [exact body_closed|]. split; [|apply is_ub_spec, nested_ub]. destruct (check_force_spec _ _ order_kept) as [f [E _]]. exists f. exact E.
Qed.
Print Assumptions C68_refuted.
(** the same outline drawn from two different corners: each contains the other, so the call ends with the error *)
Example C68_otherwise_met : let g := [P (-1) (-1); P 1 (-1); P 0 1] in let h := [P (-3) (-3); P 3 (-3); P 3 3; P (-3) 3] in let k := [P 3 (-3); P 3 3; P (-3) 3; P (-3) (-3)] in
  encloses ROps h g /\ encloses ROps k g /\ ~ minimal [h; k] h /\ ~ minimal [h; k] k /\
  minimal [h; [P (-2) (-2); P 2 (-2); P 2 2; P (-2) 2]] [P (-2) (-2); P 2 (-2); P 2 2; P (-2) 2].
Proof.
  intros g h k.
  assert (CH : forall q, poly_contains ROps h q = true <-> -3 <= px q <= 3 /\ -3 <= py q <= 3) by (intros q; apply rect_contains; lra).
  assert (CK : forall q, poly_contains ROps k q = poly_contains ROps h q) by (intros q; exact (contains_start [P (-3) (-3)] [P 3 (-3); P 3 3; P (-3) 3] q)).
  assert (D : forall p q, px p - px q = 6 \/ px p - px q = -6 -> ~ near p q).
  { intros p q E N. unfold near, dist, tol9 in N. assert (6 <= sqrt ((px p - px q) * (px p - px q) + (py p - py q) * (py p - py q))); [|lra].
    rewrite <- (sqrt_Rsqr 6) by lra. apply sqrt_le_1_alt. unfold Rsqr. pose proof (Rle_0_sqr (py p - py q)) as Y. unfold Rsqr in Y. destruct E as [E|E]; rewrite E; lra. }
  assert (EN : forall a b : list pt, length a <> length b -> poly_neqb ROps a b = Ok true).
  { intros a b L. destruct (poly_neqb_R a b) as [x [E Hx]]. rewrite E. f_equal. apply Hx. left. auto. }
  assert (IN : forall r q, (forall z, poly_contains ROps r z = true <-> -3 <= px z <= 3 /\ -3 <= py z <= 3) -> (forall z, In z q -> -3 <= px z <= 3 /\ -3 <= py z <= 3) -> poly_contains_poly ROps r q = true).
  { intros r q Hr Hq. unfold poly_contains_poly. apply forallb_forall. intros z Hz. apply Hr. auto. }
  assert (CK' : forall q, poly_contains ROps k q = true <-> -3 <= px q <= 3 /\ -3 <= py q <= 3) by (intros q; rewrite CK; apply CH).
  assert (B : forall q, In q (g ++ h ++ k) -> -3 <= px q <= 3 /\ -3 <= py q <= 3).
  { intros q Hq. unfold g, h, k in Hq. cbn [app In] in Hq. repeat (destruct Hq as [<-|Hq]; [rewrite px_P, py_P; lra|]). destruct Hq. }
  split; [split; [apply IN; auto; intros z Hz; apply B, in_or_app; auto|apply EN; discriminate]|].
  split; [split; [apply IN; auto; intros z Hz; apply B, in_or_app; auto|apply EN; discriminate]|].
  split; [|split].
  - intros M. assert (X : poly_contains_poly ROps h k = false).
    { apply M; [right; left; auto|]. right. exists (P (-3) (-3)), (P 3 (-3)). split; [left; auto|]. apply D. rewrite !px_P. lra. }
    rewrite IN in X; [discriminate X|auto|]. intros z Hz. apply B. apply in_or_app. right. apply in_or_app. auto.
  - intros M. assert (X : poly_contains_poly ROps k h = false).
    { apply M; [left; auto|]. right. exists (P 3 (-3)), (P (-3) (-3)). split; [left; auto|]. apply D. rewrite !px_P. lra. }
    rewrite IN in X; [discriminate X|auto|]. intros z Hz. apply B. apply in_or_app. right. apply in_or_app. auto.
  - intros q [<-|[<-|[]]] DF.
    + unfold h, poly_contains_poly. cbn [forallb]. destruct (poly_contains ROps [P (-2) (-2); P 2 (-2); P 2 2; P (-2) 2] (P (-3) (-3))) eqn:E; auto. apply rect_contains in E; try lra. rewrite px_P, py_P in E. lra.
    + exfalso. destruct DF as [L|[p [q [I N]]]]; [apply L; auto|]. apply N. cbn [combine In] in I.
      assert (p = q) as -> by (repeat (destruct I as [I|I]; [injection I as <- <-; auto|]); destruct I).
      unfold near, dist, tol9. replace ((px q - px q) * (px q - px q) + (py q - py q) * (py q - py q)) with 0 by ring. rewrite sqrt_0. lra.
Qed.
Definition is_throw_b {X} (r : res X) : bool := match r with Throw _ => true | _ => false end.
Example C68_otherwise_run : is_throw_b (force_of (fun l => l) (body_with [air_outline; [V 8 (-2); V (-2) 8; V (-2) (-2)]; body_outline]) (mixed_field 1)) = true /\
  is_ub_b (force_of (fun l => l) (body_with [body_outline]) (mixed_field 1)) = true.
Proof. split; vm_compute; reflexivity. Qed.
Example C68_met : is_ok (force_of (fun l => l) body_mesh (mixed_field 1)).
Proof. destruct (check_force_spec _ _ order_kept) as [f [E _]]. exists f. exact E. Qed.

(** ** C69: a field that vanishes *)
(** with exact arithmetic: where the field is zero around a free vertex, no force, torque or stress is returned *)
Theorem C69_vanishing : forall A pdef dm mu0 sh (m : mesh ROps A) depth B p c a i, (forall l, Permutation (sh l) l) -> is_u32 (length (m_points m)) ->
  get_assets ROps A pdef dm m B p = Ok a -> (i < length (m_points m))%nat -> held (as_flags a) i = false -> length B = length (m_tris m) ->
  (forall id, (id < length (m_tris m))%nat -> In i (corners (nth id (m_tris m) (0, 0, 0)%nat)) -> field B id = org) ->
  ~ is_ok (computeForceIntegrals ROps A pdef dm mu0 sh m depth B p) /\ ~ is_ok (computeTorqueIntegral ROps A pdef dm mu0 sh m depth B p c) /\
  ~ is_ok (computeStressIntegral ROps A pdef dm mu0 sh m depth B p c).
Proof. exact vanish_all. Qed.
Print Assumptions C69_vanishing.
(** the same from the tables on: any flags, any error range, any list of the triangles around each vertex *)
Theorem C69_tables : forall A mu0 sh (m : mesh ROps A) depth B c a i, (forall l, Permutation (sh l) l) -> is_u32 (length (m_points m)) -> length (as_flags a) = length (m_points m) ->
  (forall v id, In id (nth v (as_ids a) []) -> (id < length (m_tris m))%nat /\ In v (corners (nth id (m_tris m) (0, 0, 0)%nat))) ->
  (i < length (m_points m))%nat -> held (as_flags a) i = false -> length B = length (m_tris m) ->
  (forall id, (id < length (m_tris m))%nat -> In i (corners (nth id (m_tris m) (0, 0, 0)%nat)) -> field B id = org) ->
  (forall r, force_integral ROps A mu0 sh m depth B a <> Ok r) /\ (forall r, torque_integral ROps A mu0 sh m depth B a c <> Ok r).
Proof. exact vanish_integrals. Qed.
Print Assumptions C69_tables.
(** *** the glued squares with a field in the first four triangles only; vertex 5 is free *)
Definition pillow_field : list pt := repeat (P 1 2) 4 ++ repeat org 4.
Definition pillow_assets : assets ROps :=
  @mkAssets ROps [[0; 3; 4; 7]; [0; 1; 4; 5]; [1; 2; 5; 6]; [2; 3; 6; 7]; [0; 1; 2; 3]; [4; 5; 6; 7]]%nat (repeat 1 8) 0 1 [body_node; body_node; body_node; body_node; body_node; free_node].
Example C69_tables_met : length (as_flags pillow_assets) = length (m_points pillow) /\
  (forall v id, In id (nth v (as_ids pillow_assets) []) -> (id < length (m_tris pillow))%nat /\ In v (corners (nth id (m_tris pillow) (0, 0, 0)%nat))) /\
  held (as_flags pillow_assets) 5 = false /\ length pillow_field = length (m_tris pillow) /\
  (forall id, (id < length (m_tris pillow))%nat -> In 5%nat (corners (nth id (m_tris pillow) (0, 0, 0)%nat)) -> field pillow_field id = org).
Proof.
  split; [reflexivity|]. split; [|split; [reflexivity|split; [reflexivity|]]].
  - intros v id I. do 6 (destruct v as [|v]; [cbn in I; destruct I as [<-|[<-|[<-|[<-|[]]]]]; (split; [cbn; lia|cbn; auto])|]). destruct v; destruct I.
  - intros id Hi I. do 8 (destruct id as [|id]; [cbn in I; try lia; reflexivity|]). cbn in Hi. lia.
Qed.
Definition is_nan (x : f64) : bool := match x with S754_nan => true | _ => false end.
Lemma zero_nan : check_force (fun x y => is_nan x && is_nan y) (force_of (fun l => l) body_mesh (repeat (V 0 0) 10)) = true.
Proof. vm_compute. reflexivity. Qed.
Lemma three_nan : check_force (fun x y => is_nan x && is_nan y) (force_of (fun l => l) body_mesh (repeat (V 3 0) 10)) = true.
Proof. vm_compute. reflexivity. Qed.
(** in binary64 the force is NaN: for the field zero, and for the uniform field (3, 0) whose error range is a point *)
Theorem C69_refuted : forall B, In B [repeat (V 0 0) 10; repeat (V 3 0) 10] -> exists f, force_of (fun l => l) body_mesh B = Ok f /\ is_nan (vx f) = true /\ is_nan (vy f) = true.
Proof.
  assert (G : forall B, check_force (fun x y => is_nan x && is_nan y) (force_of (fun l => l) body_mesh B) = true -> exists f, force_of (fun l => l) body_mesh B = Ok f /\ is_nan (vx f) = true /\ is_nan (vy f) = true).
  { intros B H. apply check_force_spec in H. destruct H as [f [E H]]. apply andb_true_iff in H. exists f. auto. }
  intros B [<-|[<-|[]]]; apply G; [exact zero_nan|exact three_nan].
Qed.
Print Assumptions C69_refuted.

(** ** C70: a uniform field *)
(** the integral over the shell vanishes when the weights are equal at the two ends of every edge of its rim *)
Theorem C70_uniform_partial : forall A (m : mesh ROps A) fl (g : list R) (Bc : pt), Forall (tri_in (length (m_points m))) (m_tris m) -> proper m -> length fl = length (m_points m) ->
  length g = length (m_points m) -> no_fold m (shell m fl) -> (forall u v, rim m (shell m fl) u v -> vget g u = vget g v) ->
  exists gs, computeGrad ROps A m g = Ok gs /\ force_loop ROps A m fl gs (repeat Bc (length (m_tris m))) (m_tris m) (vzero ROps) = Ok org.
Proof. exact uniform_loop. Qed.
Print Assumptions C70_uniform_partial.
(** *** a square around its centre, the centre with another weight *)
Definition cross4 : mesh ROps R := mkMesh org 0 0 1 [P 0 0; P 2 0; P 2 2; P 0 2; P 1 1] [] (fan_of 4 0) (repeat O 4) (mkD [1] [] [] [] []).
Definition cross4_flags : list flags := repeat free_node 5.
Example C70_uniform_met : Forall (tri_in (length (m_points cross4))) (m_tris cross4) /\ proper cross4 /\ length cross4_flags = length (m_points cross4) /\ shell cross4 cross4_flags = m_tris cross4 /\
  no_fold cross4 (shell cross4 cross4_flags) /\ (forall u v, rim cross4 (shell cross4 cross4_flags) u v -> vget [1; 1; 1; 1; 5] u = vget [1; 1; 1; 1; 5] v).
Proof.
  assert (TT : forall t, In t (m_tris cross4) -> tri_turn cross4 t = 2).
  { intros t [<-|[<-|[<-|[<-|[]]]]]; unfold tri_turn, pos, t0, t1, t2, turn; cbn [fst snd m_points cross4 nth Nat.add Nat.modulo Nat.divmod Nat.sub]; rewrite !px_P, !py_P; ring. }
  assert (SE : shell cross4 cross4_flags = m_tris cross4) by reflexivity. rewrite SE.
  assert (CE : concat (map (ccw_sides cross4) (m_tris cross4)) = [(4, 0); (0, 1); (1, 4); (4, 1); (1, 2); (2, 4); (4, 2); (2, 3); (3, 4); (4, 3); (3, 0); (0, 4)]%nat).
  { assert (CC : forall t, In t (m_tris cross4) -> ccw_sides cross4 t = [(t0 t, t1 t); (t1 t, t2 t); (t2 t, t0 t)]).
    { intros t It. unfold ccw_sides. destruct (Rlt_dec (tri_turn cross4 t) 0) as [Q|Q]; auto. rewrite TT in Q by auto. lra. }
    rewrite (map_ext_in _ _ _ CC). reflexivity. }
  split; [|split; [|split; [reflexivity|split; [reflexivity|split]]]].
  - cbn. repeat constructor; unfold t0, t1, t2; cbn; lia.
  - unfold proper. rewrite Forall_forall. intros t It. rewrite TT by auto. lra.
  - unfold no_fold. rewrite CE. repeat (constructor; [cbn; intuition congruence|]). constructor.
  - intros u v [I J]. rewrite CE in *. cbn in I. repeat (destruct I as [I|I]; [injection I as <- <-; try reflexivity; exfalso; apply J; cbn; tauto|]). destruct I.
Qed.
(** the nodes whose weight is held at 0 are not corners of the shell: they cannot give its rim a common weight *)
Theorem C70_rim_not_held : forall A (m : mesh ROps A) fl t v, In t (shell m fl) -> In v (corners t) -> zero_node fl v = false.
Proof.
  intros A m fl t v It Iv. unfold shell in It. apply filter_In in It. destruct It as [_ H]. rewrite forallb_forall in H. specialize (H v Iv). unfold shell_node in H. unfold zero_node.
  apply andb_true_iff in H. destruct H as [H H1]. apply andb_true_iff in H. destruct H as [_ H]. rewrite H. apply negb_true_iff in H1. rewrite H1. reflexivity.
Qed.
Print Assumptions C70_rim_not_held.
Lemma uniform_pull : check_force (fun _ y => SFltb (fq 1000000 1) y) (force_of (fun l => rev l) body_mesh (repeat (V 1 2) 10)) = true.
Proof. vm_compute. reflexivity. Qed.
Theorem C70_refuted : exists sh m B f, (forall l, Permutation (sh l) l) /\ closed_surface (m_tris m) /\ (forall b, In b B -> b = V 1 2) /\ length B = length (m_tris m) /\
  force_of sh m B = Ok f /\ SFltb (fq 1000000 1) (vy f) = true.
Proof.
  destruct (check_force_spec _ _ uniform_pull) as [f [E H]]. exists (fun l => rev l), body_mesh, (repeat (V 1 2) 10), f.
  split; [intros l; apply Permutation_sym, Permutation_rev|]. split; [exact body_closed|]. split; [intros b; apply repeat_spec|]. auto.
Qed.
Print Assumptions C70_refuted.

(** ** C71: the force is quadratic in the field *)
(** for given weights, scaling the field by k scales the integral by k^2.  Missing for the claim: the weights change with k *)
Theorem C71_integral_partial : forall A (m : mesh ROps A) fl gs (B : list pt) k f, force_loop ROps A m fl gs B (m_tris m) (vzero ROps) = Ok f ->
  force_loop ROps A m fl gs (map (fun b : pt => P (k * px b) (k * py b)) B) (m_tris m) (vzero ROps) = Ok (P (k * k * px f) (k * k * py f)).
Proof. exact scaled_integral. Qed.
Print Assumptions C71_integral_partial.
Example C71_integral_met : exists gs f, force_loop ROps R cross4 cross4_flags gs (repeat (P 1 2) 4) (m_tris cross4) (vzero ROps) = Ok f.
Proof.
  destruct C70_uniform_met as [H1 [H2 [H3 [_ [H4 H5]]]]]. destruct (uniform_loop R cross4 cross4_flags [1; 1; 1; 1; 5] (P 1 2) H1 H2 H3 eq_refl H4 H5) as [gs [_ E]].
  exists gs, org. exact E.
Qed.
Definition scaled (k : Z) (B : list (vec FOps)) : list (vec FOps) := map (fun b => vmul FOps b (fq k 1)) B.
Lemma field_reversed : check_force (fun _ y => SFltb (fq 110000 1) y) (force_of (fun l => rev l) body_mesh (scaled (-1) (mixed_field 1))) = true.
Proof. vm_compute. reflexivity. Qed.
Lemma field_doubled : check_force (fun _ y => SFltb (fq 450000 1) y) (force_of (fun l => rev l) body_mesh (scaled 2 (mixed_field 1))) = true.
Proof. vm_compute. reflexivity. Qed.
(** in binary64: the field reversed gives more than 1.5 times the force, the field doubled more than 6 times *)
Theorem C71_refuted : exists sh m B f f1 f2, (forall l, Permutation (sh l) l) /\ closed_surface (m_tris m) /\
  force_of sh m B = Ok f /\ force_of sh m (scaled (-1) B) = Ok f1 /\ force_of sh m (scaled 2 B) = Ok f2 /\
  SFltb (vy f) (fq 70000 1) = true /\ SFltb (fq 110000 1) (vy f1) = true /\ SFltb (fq 450000 1) (vy f2) = true.
Proof.
  destruct (check_force_spec _ _ order_reversed) as [f [E H]]. apply andb_true_iff in H. destruct H as [_ H]. destruct (check_force_spec _ _ field_reversed) as [f1 [E1 H1]]. destruct (check_force_spec _ _ field_doubled) as [f2 [E2 H2]].
  exists (fun l => rev l), body_mesh, (mixed_field 1), f, f1, f2. split; [intros l; apply Permutation_sym, Permutation_rev|]. split; [exact body_closed|].
  split; [exact E|]. split; [exact E1|]. split; [exact E2|]. split; [exact H|]. split; [exact H1|exact H2].
Qed.
Print Assumptions C71_refuted.
