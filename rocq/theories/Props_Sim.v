(** Property C65.  Vocabulary in SimSpec.v, model in SimModel.v. *)
From Coq Require Import String.
From Coq Require Import List Arith ZArith NArith Bool Lia Reals Lra.
From Coq Require Import Floats.SpecFloat.
From Verif Require Import Base SumR AlgebraModel AlgebraSpec SolversModel SolversSpec Solvers_bridge GeometryModel GeometrySpec Geometry_proofs DrawingModel DrawingSpec MeshModel MeshSpec
  Energy_proofs Pin_proofs MeshGeo_proofs MaterialModel MaterialSpec Material_proofs LayersSpec Conductor_proofs SimModel SimSpec Sim_proofs Props_Mesh Props_Material.
Import ListNotations.
Local Open Scope R_scope.

(** ** C65: the magnetostatic solution *)
(** linear materials: solve succeeds, reports convergence, and the field equations hold to 1e-6 with the materials' permeabilities *)
Theorem C65_linear : forall (vacuum : R) m ps S, ms_problem m ps S -> fits (sA _ S) -> Forall (fun p : mprop ROps => p_bh p = [] /\ 0 < p_mu p) ps -> (N.of_nat (length (m_points m)) <= 100000)%N ->
  exists x i mu, ms_solve ROps exp vacuum m S = Ok (x, mu, Some i) /\ length x = length (m_points m) /\ curves_give m ps x mu /\ field_residual S mu x < 1 / 10 ^ 6.
Proof.
  intros vac m ps S MP FT PM LE. destruct (linear_run vac m ps S MP FT PM LE) as [x [i [E [L H]]]]. exists x, i, (map p_mu ps). split; auto. split; auto. split; auto. eapply linear_curves; eauto.
Qed.
Print Assumptions C65_linear.
Lemma sumn_ge_term : forall k (f : nat -> R), (forall i, (i < k)%nat -> 0 <= f i) -> forall i, (i < k)%nat -> f i <= sumn k f.
Proof.
  induction k as [|k IH]; intros f P i Hi; [lia|]. cbn [sumn]. assert (0 <= f k) by (apply P; lia).
  assert (0 <= sumn k f) by (apply sumn_nonneg; intros; apply P; lia).
  destruct (Nat.eq_dec i k) as [->|N]; [lra|]. specialize (IH f ltac:(intros; apply P; lia) i ltac:(lia)). lra.
Qed.
(** a small residual bounds the error of every single equation *)
Theorem C65_row_by_row : forall S mu x (e : R) i, valid_system S -> field_residual S mu x < e -> (i < length (sb _ S))%nat ->
  Rabs (vget (sb R (sys_eval S mu)) i - row (sA R (sys_eval S mu)) x i) < e.
Proof.
  intros S mu x e i V H Hi. assert (C : cm (sA R (sys_eval S mu)) = length (sb _ S)) by (destruct V as [_ [C _]]; exact C).
  eapply Rle_lt_trans; [|exact H]. unfold field_residual, residual_norm. rewrite C. rewrite <- sqrt_Rsqr_abs. apply sqrt_le_1_alt. unfold Rsqr.
  apply (sumn_ge_term (length (sb _ S)) (fun i => (vget (sb R (sys_eval S mu)) i - row (sA R (sys_eval S mu)) x i) * (vget (sb R (sys_eval S mu)) i - row (sA R (sys_eval S mu)) x i))); auto. intros k Hk. apply Rle_0_sqr.
Qed.
Print Assumptions C65_row_by_row.
(** non-linear materials: no failure other than the undefined look-up between the last two points of a curve; permeabilities stay
    positive; when convergence is reported the equations hold to 1e-7 with the permeabilities last used.
    Missing from the property: that these are the permeabilities of the curves (false, below). *)
Theorem C65_nonlinear_partial : forall (vacuum : R) m ps S, 0 <= vacuum -> ms_problem m ps S -> fits (sA _ S) -> Forall proper_material ps -> Exists (fun p : mprop ROps => p_bh p <> []) ps ->
  (is_ub (ms_solve ROps exp vacuum m S) /\ ((exists p, In p ps /\ off_the_end p 0) \/ exists x, intermediate vacuum ps S x /\ off_a_curve m ps x)) \/
  exists x mu st mu0, ms_solve ROps exp vacuum m S = Ok (x, mu, st) /\ length x = length (m_points m) /\ length mu = length (m_tris m) /\ positive mu /\ at_rest ps mu0 /\ updates vacuum ps mu0 mu /\
    (forall j, st = Some j -> (j < 500)%nat /\ field_residual S mu x < 1 / 10 ^ 7) /\ (st = None -> 1 / 10 ^ 7 <= field_residual S mu x).
Proof.
  intros vac m ps S V MP FT PM NL. destruct (nonlinear_run vac V m ps S MP FT PM NL) as [H|[x [mu [st [mu0 [E [L1 [L2 [P [AR [UP H]]]]]]]]]]]; [left; exact H|right].
  exists x, mu, st, mu0. repeat (split; [solve [auto]|]). split.
  - intros j ->. destruct H as [H1 [H2 _]]. auto.
  - intros ->. apply H.
Qed.
Print Assumptions C65_nonlinear_partial.
(** the earlier convergence is reported, the further the permeability of every triangle of a non-linear material is from its curve *)
Theorem C65_early_convergence : forall (vacuum : R) m ps S x mu j, 0 <= vacuum -> ms_problem m ps S -> fits (sA _ S) -> Forall proper_material ps ->
  ms_solve ROps exp vacuum m S = Ok (x, mu, Some j) -> forall e, (e < length ps)%nat -> p_bh (nth e ps no_material) <> [] -> left_over vacuum j <= vget mu e.
Proof.
  intros vac m ps S x mu j V MP FT PM E e He NL.
  assert (EX : Exists (fun p : mprop ROps => p_bh p <> []) ps) by (apply Exists_exists; exists (nth e ps no_material); split; [apply nth_In; auto|auto]).
  destruct (nonlinear_run vac V m ps S MP FT PM EX) as [[[s U] _]|[x' [mu' [st [mu0 [E' [_ [_ [_ [_ [_ H]]]]]]]]]]]; [rewrite U in E; discriminate|].
  rewrite E in E'. injection E' as <- <- <-. destruct H as [_ [_ B]]. rewrite <- lefto_S. apply B; auto. destruct (attrs_len m ps S MP) as [_ L]. rewrite <- L. exact He.
Qed.
Print Assumptions C65_early_convergence.
Lemma exp_INR : forall k, exp (INR k) = exp 1 ^ k.
Proof. induction k as [|k IH]; [apply exp_0|]. rewrite S_INR, exp_plus, IH. cbn [pow]. ring. Qed.
(** a vacuum permeability of 4 pi 1e-7 H/m: stopping within the first 17 passes leaves a permeability above 1 H/m, some 800000 times that of vacuum *)
Theorem C65_early_convergence_17 : forall j, (j <= 16)%nat -> 1 < left_over (4 * PI / 10 ^ 7) j.
Proof.
  intros j Hj. unfold left_over. pose proof PI2_3_2 as HP. unfold PI2 in HP. assert (V : 12 / 10 ^ 7 < 4 * PI / 10 ^ 7) by (apply Rmult_lt_compat_r; [apply Rinv_0_lt_compat, pow_lt; lra|lra]).
  assert (B : exp (- (272 / 10)) <= exp (- (INR j * (INR j + 1)) / 10)).
  { destruct (Req_dec (INR j) 16) as [->|N]; [right; f_equal; lra|]. left. apply exp_increasing. apply le_INR in Hj. cbn [INR] in Hj. pose proof (pos_INR j). assert (INR j < 16) by lra. nra. }
  assert (E1 : exp 1 <= 3) by apply exp_le_3.
  assert (E28 : exp (272 / 10) <= 3 ^ 28).
  { apply Rle_trans with (exp 28); [left; apply exp_increasing; lra|]. replace 28 with (INR 28) by (cbn [INR]; lra). rewrite exp_INR. apply pow_incr. split; [left; apply exp_pos|exact E1]. }
  assert (B2 : / 3 ^ 28 <= exp (- (272 / 10))) by (rewrite exp_Ropp; apply Rinv_le_contravar; [apply exp_pos|exact E28]).
  assert (X : 12 / 10 ^ 7 * 10 ^ 20 * / 3 ^ 28 <= 4 * PI / 10 ^ 7 * 10 ^ 20 * exp (- (INR j * (INR j + 1)) / 10)).
  { apply Rmult_le_compat; [apply Rmult_le_pos; [lra|apply pow_le; lra]|left; apply Rinv_0_lt_compat, pow_lt; lra|apply Rmult_le_compat_r; [apply pow_le; lra|lra]|lra]. }
  eapply Rlt_le_trans; [|exact X]. lra.
Qed.
Print Assumptions C65_early_convergence_17.

(** *** the claim is false with the library's own iron: in binary64, on a 25-node mesh, solve reports convergence in iteration 1 *)
Definition grid : list (vec FOps) := concat (map (fun j => map (fun i => @mkV FOps (fq (Z.of_nat i - 2) 100) (fq (Z.of_nat j - 2) 100)) (seq 0 5)) (seq 0 5)).
Definition quads : list (nat * nat) := concat (map (fun j => map (fun i => (i, j)) (seq 0 4)) (seq 0 4)).
Definition grid_tris : list tri := concat (map (fun q => let n := (5 * snd q + fst q)%nat in [(n, n + 1, n + 6); (n, n + 6, n + 5)]%nat) quads).
(** an iron bar of two cells beside a conductor of one, in air; cells of 1 cm *)
Definition grid_attrs : list nat := concat (map (fun q => match q with (1, 1) | (1, 2) => [1; 1] | (2, 1) => [2; 2] | _ => [0; 0] end) quads)%nat.
Definition fvac : f64 := fq 1256637061435917 1000000000000000000000.
Definition fzv : vec FOps := @mkV FOps (zero FOps) (zero FOps).
Definition fair : mprop FOps := @mkProp FOps (zero FOps) fzv fvac [].
Definition fcoil : mprop FOps := @mkProp FOps (fq 1000000 1) fzv fvac [].
Definition iron_mesh : mesh FOps (mprop FOps) :=
  @mkMesh FOps (mprop FOps) fzv (fq 1 1) (fq 1 1000) (fq 1 1) grid (repeat true 25) grid_tris grid_attrs (mkD [fair; firon; fcoil] [] [] [] []).
(** exp at the two places where it is needed: exp(-0/5) = 1, and exp(-1/5) rounded *)
Definition fexp2 (x : f64) : f64 := if SFeqb x (zero FOps) then one FOps else fq 81873075307798182 100000000000000000.
Definition iron_system : res (nsystem FOps) :=
  S1 <- ms_getFemSystem FOps (mprop FOps) p_J p_M iron_mesh (unique_edges grid_tris) ;; addDirichletInfinite FOps (mprop FOps) iron_mesh S1.
(** |B| in the triangles *)
Definition inductions (m : mesh FOps (mprop FOps)) (x : list f64) : res (list f64) :=
  Bs <- computeCurl FOps (mprop FOps) m x ;; map_res (fun B => GeometryModel.norm FOps B) Bs.
(** the permeabilities the materials have at these inductions *)
Definition curve_mu (m : mesh FOps (mprop FOps)) (x : list f64) : res (list f64) :=
  Bs <- inductions m x ;; ps <- fill_props FOps m ;; map_res (fun q => getMu FOps (snd q) (fst q)) (combine Bs ps).
(** |b - A x| for the permeabilities mu *)
Definition fresidual (S : nsystem FOps) (mu x : list f64) : res f64 :=
  F <- ncsr_build FOps (sA _ S) ;; F <- ncsr_evaluate FOps (sA _ S) F mu ;; b <- eval_b FOps (sb _ S) mu ;;
  r <- mult_sym FOps b (ncsr_csr FOps F) x ;; r <- zip2 FOps (sub FOps) b r ;; AlgebraModel.norm FOps r.
Definition false_convergence (c1 c2 c3 c4 c5 : f64) (m : mesh FOps (mprop FOps)) (S1 : nsystem FOps) (x mu : list f64) : bool :=
  match inductions m x with
  | Ok Bs => match curve_mu m x with
    | Ok cm => match fresidual S1 cm x with
      | Ok r => match fresidual S1 mu x with
        | Ok r' => SFltb c1 (nth 10 mu S754_nan) && SFltb (nth 10 Bs S754_nan) c2 && SFltb (nth 10 cm S754_nan) c3 &&
            SFltb c4 r && SFltb r' c5
        | _ => false end
      | _ => false end
    | _ => false end
  | _ => false end.
Definition check (c1 c2 c3 c4 c5 : f64) (m : mesh FOps (mprop FOps)) (sys : res (nsystem FOps)) (solve : nsystem FOps -> res (list f64 * list f64 * option nat)) : bool :=
  match sys with
  | Ok S1 => match solve S1 with
    | Ok q => match snd q with Some i => Nat.eqb i 1 && false_convergence c1 c2 c3 c4 c5 m S1 (fst (fst q)) (snd (fst q)) | None => false end
    | _ => false end
  | _ => false end.
Lemma check_spec : forall c1 c2 c3 c4 c5 m sys solve, check c1 c2 c3 c4 c5 m sys solve = true -> exists S x mu Bs cm r r', sys = Ok S /\ solve S = Ok (x, mu, Some 1%nat) /\
  SFltb c1 (nth 10 mu S754_nan) = true /\ inductions m x = Ok Bs /\ SFltb (nth 10 Bs S754_nan) c2 = true /\
  curve_mu m x = Ok cm /\ SFltb (nth 10 cm S754_nan) c3 = true /\ fresidual S cm x = Ok r /\ SFltb c4 r = true /\ fresidual S mu x = Ok r' /\ SFltb r' c5 = true.
Proof.
  intros c1 c2 c3 c4 c5 m sys solve H. unfold check in H. destruct sys as [S1|s|s|s]; try discriminate H. destruct (solve S1) as [[[x mu] st]|s|s|s] eqn:E; try discriminate H. cbn [fst snd] in H.
  destruct st as [i|]; [|discriminate H]. apply andb_true_iff in H. destruct H as [H1 H]. apply Nat.eqb_eq in H1. subst i. unfold false_convergence in H.
  destruct (inductions m x) as [Bs|s|s|s] eqn:EB; try discriminate H. destruct (curve_mu m x) as [cm|s|s|s] eqn:EM; try discriminate H.
  destruct (fresidual S1 cm x) as [r|s|s|s] eqn:E1; try discriminate H. destruct (fresidual S1 mu x) as [r'|s|s|s] eqn:E2; try discriminate H.
  apply andb_true_iff in H. destruct H as [H H5]. apply andb_true_iff in H. destruct H as [H H4]. apply andb_true_iff in H. destruct H as [H H3]. apply andb_true_iff in H. destruct H as [H1 H2].
  exists S1, x, mu, Bs, cm, r, r'. repeat (split; [assumption || reflexivity|]). assumption.
Qed.
Lemma iron_checked : check (fq (10 ^ 13) 1) (fq 1 100) (fq 1 1000) (fq 7 10) (fq 1 10000000) iron_mesh iron_system (ms_solve FOps fexp2 fvac iron_mesh) = true.
Proof. vm_compute. reflexivity. Qed.
(** convergence reported in iteration 1; permeability of the iron above 1e13 H/m where its curve gives less than 1e-3; with the
    curves' permeabilities the residual is above 0.7, not below 1e-7 *)
Theorem C65_reported_convergence_refuted : exists S x mu Bs cm r r', iron_system = Ok S /\ ms_solve FOps fexp2 fvac iron_mesh S = Ok (x, mu, Some 1%nat) /\
  SFltb (fq (10 ^ 13) 1) (nth 10 mu S754_nan) = true /\ inductions iron_mesh x = Ok Bs /\ SFltb (nth 10 Bs S754_nan) (fq 1 100) = true /\
  curve_mu iron_mesh x = Ok cm /\ SFltb (nth 10 cm S754_nan) (fq 1 1000) = true /\ fresidual S cm x = Ok r /\ SFltb (fq 7 10) r = true /\ fresidual S mu x = Ok r' /\ SFltb r' (fq 1 10000000) = true.
Proof. exact (check_spec _ _ _ _ _ iron_mesh iron_system _ iron_checked). Qed.
Print Assumptions C65_reported_convergence_refuted.

(** *** a case meeting the hypotheses: half of a square conducting, half iron *)
Definition coil_of (J mu : R) : mprop ROps := @mkProp ROps J org mu [].
Definition sqp (p q : mprop ROps) : mesh ROps (mprop ROps) :=
  mkMesh org 0 1 2 [P 0 0; P 2 0; P 2 2; P 0 2] [true; true; true; true] [(0, 1, 2); (0, 2, 3)]%nat [0; 1]%nat (mkD [p; q] [] [] [] []).
Lemma sqp_problem : forall p q, exists S, ms_problem (sqp p q) [p; q] S.
Proof.
  intros p q. assert (RD : fem_ready (sqp p q) [p; q]).
  { split; [|split; [|split]].
    - split; [|split; [reflexivity|unfold is_u32; cbn; lia]]. cbn. repeat constructor; unfold t0, t1, t2; cbn; lia.
    - cbn. repeat constructor.
    - intros v. apply deg_small. cbn. lia.
    - unfold proper. cbn [m_tris sqp]. repeat constructor; unfold tri_turn, pos, t0, t1, t2, turn; cbn [fst snd m_points sqp nth]; rewrite !px_P, !py_P; lra. }
  assert (U : all_used (sqp p q)) by (intros v Hv; cbn in Hv; destruct v as [|[|[|[|v]]]]; try lia; vm_compute; lia).
  destruct C59_example as [_ [_ [_ [a [b [c [F [ND HP]]]]]]]].
  destruct (C37_total_load _ (sqp p q) [p; q] p_J p_M RD ltac:(cbn; lia) ltac:(intros r []) []) as [S [E _]].
  assert (HP' : pins (sqp p q) [a; b; c]).
  { intros v Hv. destruct (HP v Hv) as [u [Iu L]]. exists u. split; auto. clear - L. induction L as [|u v w t L IH I1 I2 I3]; [constructor|]. eapply linked_step; eauto. }
  destruct (C49_three_farthest (m_points sqm)) as [a' [b' [c' [F' [La [Lb [Lc _]]]]]]].
  { destruct C49_example as [D1 [D2 D3]]. exists 1%nat, 2%nat, 3%nat. cbn [length m_points sqm]. repeat split; auto; lia. }
  rewrite F in F'. injection F' as <- <- <-.
  destruct (ms_pinned _ (sqp p q) [p; q] p_J p_M [] S a b c RD U E F ND La Lb Lc HP' [1; 1] eq_refl) as [S' [E' _]].
  { intros [|[|i]] Hi; cbn in Hi |- *; try lra. lia. }
  exists S'. split; auto. split; auto. exists [], S, a, b, c. repeat (split; [assumption|]). assumption.
Qed.
Example C65_example : exists S, ms_problem (sqp (coil_of 1 1) iron) [coil_of 1 1; iron] S /\ fits (sA _ S) /\ Forall proper_material [coil_of 1 1; iron] /\
  Exists (fun p : mprop ROps => p_bh p <> []) [coil_of 1 1; iron] /\ at_rest [coil_of 1 1; iron] [1; 42 / 100 / 3000].
Proof.
  destruct (sqp_problem (coil_of 1 1) iron) as [S MP]. exists S. split; auto. destruct (problem_facts _ _ _ MP) as [_ [[V [C _]] [L _]]].
  split; [apply fits_small; auto; rewrite C, L; cbn; lia|]. split.
  - constructor; [left; split; [reflexivity|unfold coil_of; cbn; lra]|]. constructor; [right; split; [cbn; lia|exact iron_increasing]|constructor].
  - split; [apply Exists_cons_tl, Exists_cons_hd; discriminate|]. constructor; [reflexivity|]. constructor; [|constructor].
    destruct (getMu_defined iron iron_points eq_refl ltac:(cbn; lia) iron_increasing 0) as [i [_ [E [K _]]]]; [unfold in_last_interval, Bi; cbn; lra|].
    rewrite E, K by (unfold Bi; cbn; lra). apply f_equal. unfold segment_slope, Bi, Hi. cbn. field.
Qed.
