(** Properties C41, C42 and C64.  Vocabulary in MaterialSpec.v, model in MaterialModel.v. *)
From Coq Require Import String.
From Coq Require Import List Arith ZArith NArith Bool Lia Reals Lra.
From Coq Require Import Floats.SpecFloat.
From Verif Require Import Base SumR AlgebraModel AlgebraSpec SolversModel SolversSpec Solvers_bridge GeometryModel GeometrySpec Geometry_proofs MaterialModel MaterialSpec Material_proofs.
Import ListNotations.
Local Open Scope R_scope.

(** *** the library's own curve, magnetostatic_materials::iron *)
Definition iron_points : list (R * R) := [(1, 2000); (142 / 100, 5000); (17 / 10, 10000); (2, 40000)].
Definition iron : mprop ROps := @mkProp ROps 0 org 0 iron_points.
Lemma iron_increasing : increasing iron_points.
Proof.
  split; intros i j Hij Hj; cbn in Hj; (destruct j as [|[|[|[|j]]]]; [lia| | | |lia]); (destruct i as [|[|[|i]]]; try lia); unfold Bi, Hi, iron_points; cbn [nth fst snd]; lra.
Qed.
Lemma iron_set : bh_curve ROps [(2, 40000); (17 / 10, 10000); (1, 2000); (142 / 100, 5000); (1, 3000)] = iron_points.
Proof.
  unfold bh_curve, iron_points. cbn [fold_left bh_insert fst]. change (ltb ROps) with Rltb.
  repeat (match goal with |- context [Rltb ?a ?b] => first [rewrite (proj2 (Rltb_true a b)) by lra | rewrite (proj2 (Rltb_false a b)) by lra] end; cbn [bh_insert fst]; change (ltb ROps) with Rltb).
  reflexivity.
Qed.

(** ** C41: the look-up *)
(** memory safety, in any arithmetic: out of bounds exactly when only the last point is not below B *)
Theorem C41_out_of_bounds_iff : forall (o : Ops), scalar_ops_total o -> forall (p : mprop o) (B : T o), is_ub (getMu o p B) <->
  exists pre q, p_bh p = pre ++ [q] /\ pre <> [] /\ Forall (fun x => ltb o (fst x) B = true) pre /\ ltb o (fst q) B = false.
Proof. exact getMu_ub. Qed.
Print Assumptions C41_out_of_bounds_iff.
Theorem C41_defined_outside_the_last_interval : forall (p : mprop ROps) (B : R), (2 <= length (p_bh p))%nat -> increasing (p_bh p) ->
  (is_ub (getMu ROps p B) <-> in_last_interval (p_bh p) B) /\
  (~ in_last_interval (p_bh p) B -> exists i, (S i < length (p_bh p))%nat /\ getMu ROps p B = Ok (segment_slope (p_bh p) i) /\ 0 < segment_slope (p_bh p) i /\
     (B <= Bi (p_bh p) 0 -> i = O) /\ (Bi (p_bh p) (length (p_bh p) - 1) < B -> i = (length (p_bh p) - 2)%nat) /\
     (Bi (p_bh p) 0 < B <= Bi (p_bh p) (length (p_bh p) - 1) -> (0 < i)%nat /\ Bi (p_bh p) (i - 1) < B <= Bi (p_bh p) i)).
Proof.
  intros p B T I. split; [apply (getMu_ub_iff p (p_bh p) eq_refl T I)|]. intros H.
  destruct (getMu_defined p (p_bh p) eq_refl T I B H) as [i [H1 [H2 H3]]]. exists i. split; [exact H1|]. split; [exact H2|]. split; [|exact H3]. apply segment_slope_pos; auto.
Qed.
Print Assumptions C41_defined_outside_the_last_interval.
Theorem C41_constant_and_single_point : forall (o : Ops) (p : mprop o) (B : T o),
  (p_bh p = [] -> getMu o p B = Ok (p_mu p)) /\ (length (p_bh p) = 1%nat -> is_throw (getMu o p B)).
Proof.
  intros o p B. unfold getMu. split; [intros ->; reflexivity|]. intros E. unfold bh in *. rewrite E. cbn. eexists; reflexivity.
Qed.
Print Assumptions C41_constant_and_single_point.
(** two points with the same H are divided by zero *)
Theorem C41_flat_curve : forall (p : mprop ROps) (B : R), (2 <= length (p_bh p))%nat -> B <= Bi (p_bh p) 0 -> Hi (p_bh p) 0 = Hi (p_bh p) 1 -> is_nonfin (getMu ROps p B).
Proof.
  intros p B T H E. rewrite (getMu_step p (p_bh p) eq_refl T). cbv zeta. destruct (lower_bound_spec (p_bh p) B) as [_ [L _]].
  destruct (Nat.eqb_spec (lower_bound ROps (p_bh p) B) 0) as [->|N].
  - apply slope_at_flat; auto; toB; lia.
  - exfalso. assert (Bi (p_bh p) 0 < B) by (apply L; lia). lra.
Qed.
Print Assumptions C41_flat_curve.
(** the points of a curve written in any order are put in order of B; of points with the same B one is kept *)
Theorem C41_curves_are_ordered : forall l, ordered (bh_curve ROps l) /\ forall x, (In x (bh_curve ROps l) -> In x l) /\ (In x l -> exists y, In y (bh_curve ROps l) /\ fst y = fst x).
Proof. intros l. split; [apply curve_ordered|apply curve_points]. Qed.
Print Assumptions C41_curves_are_ordered.
(** false as stated: iron at B = 1.9, and in binary64 too *)
Theorem C41_refuted : exists (p : mprop ROps) (B : R), (2 <= length (p_bh p))%nat /\ increasing (p_bh p) /\ 0 <= B /\ is_ub (getMu ROps p B).
Proof.
  exists iron, (19 / 10). split; [cbn; lia|]. split; [exact iron_increasing|]. split; [lra|].
  apply (getMu_off_end iron iron_points eq_refl); [cbn; lia|exact iron_increasing|]. unfold in_last_interval, Bi. cbn. lra.
Qed.
Print Assumptions C41_refuted.
Definition fq (a b : Z) : f64 := f64_div (f64_ofZ a) (f64_ofZ b).
Definition firon : mprop FOps := @mkProp FOps (zero FOps) (mkV (zero FOps) (zero FOps)) (zero FOps)
  (bh_curve FOps [(fq 1 1, fq 2000 1); (fq 142 100, fq 5000 1); (fq 17 10, fq 10000 1); (fq 2 1, fq 40000 1)]).
Definition ub_b {X} (r : res X) : bool := match r with UB _ => true | _ => false end.
Theorem C41_binary64_iron_refuted : is_ub (getMu FOps firon (fq 19 10)).
Proof.
  assert (H : ub_b (getMu FOps firon (fq 19 10)) = true) by (vm_compute; reflexivity).
  destruct (getMu FOps firon (fq 19 10)); try discriminate. eexists; reflexivity.
Qed.
Print Assumptions C41_binary64_iron_refuted.
Example C41_example : getMu ROps iron (15 / 10) = Ok (3 / 10 / 30000) /\ ~ in_last_interval iron_points (15 / 10).
Proof.
  assert (N : ~ in_last_interval iron_points (15 / 10)) by (unfold in_last_interval, Bi; cbn; lra). split; auto.
  destruct (getMu_defined iron iron_points eq_refl ltac:(cbn; lia) iron_increasing (15 / 10) N) as [i [H1 [H2 [_ [_ H3]]]]]. rewrite H2.
  destruct H3 as [I0 I1]; [unfold Bi; cbn; lra|]. cbn in H1. destruct i as [|[|[|i]]]; try lia.
  - exfalso. unfold Bi in I1. cbn in I1. lra.
  - f_equal. unfold segment_slope, Bi, Hi. cbn. field.
Qed.

(** ** C64: is it the permeability of the curve? *)
(** on a curve that is a line through the origin, yes *)
Theorem C64_proportional_curve : forall (p : mprop ROps) (nu B : R), (2 <= length (p_bh p))%nat -> ordered (p_bh p) -> 0 < nu ->
  (forall i, (i < length (p_bh p))%nat -> Hi (p_bh p) i = nu * Bi (p_bh p) i) -> ~ in_last_interval (p_bh p) B -> getMu ROps p B = Ok (/ nu).
Proof. exact proportional_getMu. Qed.
Print Assumptions C64_proportional_curve.
(** iron at B = 1.2: neither B / H nor the slope of the curve there, but the slope of the segment after it *)
Theorem C64_refuted : exists g, getMu ROps iron (12 / 10) = Ok g /\ (exists H, on_curve iron_points (12 / 10) H) /\
  (forall H, on_curve iron_points (12 / 10) H -> 12 / 10 <> g * H) /\
  (forall i, (S i < 4)%nat -> Bi iron_points i <= 12 / 10 <= Bi iron_points (S i) -> g <> segment_slope iron_points i).
Proof.
  exists (segment_slope iron_points 1). split.
  { assert (N : ~ in_last_interval iron_points (12 / 10)) by (unfold in_last_interval, Bi; cbn; lra).
    destruct (getMu_defined iron iron_points eq_refl ltac:(cbn; lia) iron_increasing (12 / 10) N) as [i [H1 [H2 [_ [_ H3]]]]]. rewrite H2.
    destruct H3 as [I0 I1]; [unfold Bi; cbn; lra|]. cbn in H1. destruct i as [|[|[|i]]]; try lia; [reflexivity|].
    exfalso. unfold Bi in I1. cbn in I1. lra. }
  assert (G : segment_slope iron_points 1 = 28 / 100 / 5000) by (unfold segment_slope, Bi, Hi; cbn; field). rewrite G. split; [|split].
  - exists (2000 + 20 / 42 * 3000), 0%nat, (20 / 42). unfold Bi, Hi. cbn. repeat split; try lia; lra.
  - intros H [i [t [Li [Ht [E1 E2]]]]]. cbn in Li. destruct i as [|[|[|i]]]; try lia; unfold Bi, Hi in *; cbn in *; lra.
  - intros i Li Hb. destruct i as [|[|[|i]]]; try lia; unfold segment_slope, Bi, Hi in *; cbn in *; try lra.
Qed.
Print Assumptions C64_refuted.
Example C64_example : exists p : mprop ROps, (2 <= length (p_bh p))%nat /\ ordered (p_bh p) /\ (forall i, (i < length (p_bh p))%nat -> Hi (p_bh p) i = 800 * Bi (p_bh p) i) /\ ~ in_last_interval (p_bh p) 1.
Proof.
  exists (@mkProp ROps 0 org 0 [(0, 0); (1, 800); (3 / 2, 1200)]). cbn [p_bh length]. split; [lia|]. split; [|split].
  - intros i j Hij Hj. cbn in Hj. destruct j as [|[|[|j]]]; try lia; destruct i as [|[|i]]; try lia; unfold Bi; cbn; lra.
  - intros i Hi_. destruct i as [|[|[|i]]]; try lia; unfold Bi, Hi; cbn; lra.
  - unfold in_last_interval, Bi. cbn. lra.
Qed.

(** ** C42: relaxation *)
(** the value after an update, for linear and non-linear materials *)
Theorem C42_values : forall (vac : R) (Bs : list pt) (props : list (mprop ROps)) (mu : list R) (r : R) (iter : nat) (mu' : list R),
  length mu = length Bs -> (length Bs <= length props)%nat -> updateMu ROps exp vac Bs props mu r iter = Ok mu' ->
  length mu' = length mu /\ forall i, (i < length mu)%nat -> let p := nth i props no_material in
    (p_bh p = [] -> vget mu' i = p_mu p) /\
    (p_bh p <> [] -> exists g, getMu ROps p (dist (nth i Bs org) org) = Ok g /\ vget mu' i = (1 - weight iter) * g + weight iter * (vget mu i + vac * (r * r))).
Proof. exact updateMu_values. Qed.
Print Assumptions C42_values.
(** never below the old and the new value; above them by at most vacuum * residual^2 *)
Theorem C42_bounds_partial : forall (vac : R) (Bs : list pt) (props : list (mprop ROps)) (mu : list R) (r : R) (iter : nat) (mu' : list R) (i : nat),
  0 <= vac -> length mu = length Bs -> (length Bs <= length props)%nat -> updateMu ROps exp vac Bs props mu r iter = Ok mu' -> (i < length mu)%nat ->
  exists g, getMu ROps (nth i props no_material) (dist (nth i Bs org) org) = Ok g /\ Rmin (vget mu i) g <= vget mu' i <= Rmax (vget mu i + vac * (r * r)) g.
Proof. exact updateMu_bounds. Qed.
Print Assumptions C42_bounds_partial.
(** positive stays positive, over any sequence of updates *)
Theorem C42_stays_positive : forall (vac : R) (props : list (mprop ROps)) (mu mu' : list R), 0 <= vac -> Forall proper_material props -> (length mu <= length props)%nat ->
  (forall i, (i < length mu)%nat -> 0 < vget mu i) -> updates vac props mu mu' -> length mu' = length mu /\ forall i, (i < length mu')%nat -> 0 < vget mu' i.
Proof. exact updates_positive. Qed.
Print Assumptions C42_stays_positive.
(** an update is defined unless some triangle's induction falls between the last two points of its curve *)
Theorem C42_defined : forall (vac : R) (Bs : list pt) (props : list (mprop ROps)) (mu : list R) (r : R) (iter : nat),
  length mu = length Bs -> (length Bs <= length props)%nat -> Forall proper_material props ->
  (is_ub (updateMu ROps exp vac Bs props mu r iter) <-> exists i, (i < length mu)%nat /\ off_the_end (nth i props no_material) (dist (nth i Bs org) org)) /\
  (is_ub (updateMu ROps exp vac Bs props mu r iter) \/ is_ok (updateMu ROps exp vac Bs props mu r iter)).
Proof. exact updateMu_defined. Qed.
Print Assumptions C42_defined.
(** iteration 0 does not use the look-up of non-linear materials at all *)
Theorem C42_first_update_ignores_the_curve : forall (vac : R) (Bs : list pt) (props : list (mprop ROps)) (mu : list R) (r : R) (mu' : list R),
  length mu = length Bs -> (length Bs <= length props)%nat -> updateMu ROps exp vac Bs props mu r 0 = Ok mu' ->
  forall i, (i < length mu)%nat -> p_bh (nth i props no_material) <> [] -> vget mu' i = vget mu i + vac * (r * r).
Proof.
  intros vac Bs props mu r mu' L1 L2 E i Hi N. destruct (updateMu_values vac Bs props mu r 0 mu' L1 L2 E) as [_ H]. destruct (H i Hi) as [_ H2].
  destruct (H2 N) as [g [_ ->]]. rewrite weight_0. ring.
Qed.
Print Assumptions C42_first_update_ignores_the_curve.
Lemma iron_at_15 : getMu ROps iron (dist (P (15 / 10) 0) org) = Ok (3 / 10 / 30000).
Proof.
  replace (dist (P (15 / 10) 0) org) with (15 / 10); [apply C41_example|]. unfold dist, org. rewrite !px_P, !py_P.
  replace ((15 / 10 - 0) * (15 / 10 - 0) + (0 - 0) * (0 - 0)) with (Rsqr (15 / 10)) by (unfold Rsqr; field). rewrite sqrt_Rsqr by lra. reflexivity.
Qed.
Lemma iron_update : forall vac mu r iter, updateMu ROps exp vac [P (15 / 10) 0] [iron] [mu] r iter = Ok [3 / 10 / 30000 * (1 - weight iter) + (mu + vac * r * r) * weight iter].
Proof.
  intros vac mu r iter. destruct (updateMu_step vac [P (15 / 10) 0] [iron] [mu] r iter eq_refl (le_n 1)) as [[mu' [E [L H]]]|[i [Hi [_ F]]]].
  - rewrite E. f_equal. destruct mu' as [|x [|y l]]; try discriminate L. specialize (H 0%nat (le_n 1)). cbv beta in H. cbn [nth] in H. rewrite relax_R, iron_at_15 in H. cbn [bind] in H.
    change (isLinear ROps iron) with false in H. cbn in H. injection H as H. unfold vget in H. cbn in H. rewrite H. reflexivity.
  - exfalso. cbn in Hi. assert (i = 0)%nat by lia. subst i. cbn [nth] in F. rewrite relax_R, iron_at_15 in F. cbn [bind] in F. change (isLinear ROps iron) with false in F.
    destruct F as [[s [F _]]|[[s [F _]]|[s [F _]]]]; discriminate.
Qed.
(** false as stated: the first residual is 1e10, and the new value is far above the old one and the looked-up one *)
Theorem C42_between_refuted : exists (vac : R) Bs props (mu mu' : list R) iter g, 0 < vac /\ Forall proper_material props /\ updateMu ROps exp vac Bs props mu (10 ^ 10) iter = Ok mu' /\
  length mu = 1%nat /\ length Bs = 1%nat /\ length props = 1%nat /\ 0 < vget mu 0 /\ getMu ROps (nth 0 props no_material) (dist (nth 0 Bs org) org) = Ok g /\ vget mu 0 < vget mu' 0 /\ g < vget mu' 0.
Proof.
  exists (4 * PI / 10 ^ 7), [P (15 / 10) 0], [iron], [1 / 1000]. eexists. exists 0%nat, (3 / 10 / 30000).
  pose proof PI2_3_2 as HP. assert (V : 0 < 4 * PI / 10 ^ 7) by (apply Rdiv_lt_0_compat; [unfold PI2 in *; lra|lra]).
  split; [exact V|]. split; [constructor; [right; split; [cbn; lia|exact iron_increasing]|constructor]|].
  split; [apply iron_update|]. do 3 (split; [reflexivity|]). unfold vget. cbn [nth]. rewrite weight_0. split; [lra|]. split; [exact iron_at_15|].
  assert (4 * PI / 10 ^ 7 * 10 ^ 10 * 10 ^ 10 = 4 * 10 ^ 13 * PI) by (field). unfold PI2 in HP. lra.
Qed.
Print Assumptions C42_between_refuted.
Example C42_example : Forall proper_material [iron] /\ exists mu', updates (4 / 10 ^ 6) [iron] [1 / 1000] mu' /\ mu' <> [1 / 1000].
Proof.
  split; [constructor; [right; split; [cbn; lia|exact iron_increasing]|constructor]|].
  eexists. split; [eapply updates_more; [apply updates_none|apply (iron_update (4 / 10 ^ 6) (1 / 1000) 1000 0)]|].
  rewrite weight_0. intros X. injection X as X. lra.
Qed.
