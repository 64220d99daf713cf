(** Final forms of the solver lemmas, in the vocabulary of SolversSpec.v. *)
From Coq Require Import String.
From Coq Require Import List Arith ZArith NArith Bool Lia Reals Lra.
From Verif Require Import Base SumR AlgebraModel AlgebraSpec Coo_proofs Csr_proofs Mult_proofs Vec_proofs Algebra_bridge SolversModel SolversSpec
  Safe_proofs Ssor_proofs Pcg_theory Solver_proofs Solver_spd Precond_proofs Ic_proofs.
Import ListNotations.

(** ** Any scalar type *)
Lemma ready_wf : forall V (v0 : V) A C, ready v0 A C -> wf_csr C /\ m C = cm A /\ is_u32 (cm A).
Proof.
  intros V v0 A C [W [F [D E]]]. pose proof (valid_in_range A W (fits_cm A F)) as R. pose proof (fits_cm A F) as U.
  destruct (lossless v0 A W F D) as [C1 [E1 [M _]]]. destruct F as [F1 F2]. destruct W as [ND _].
  destruct (csr_build_ok v0 A F1 F2 R ND D) as [C' [E' [W' _]]]. rewrite E in E', E1; inversion E'; inversion E1; subst. auto.
Qed.
Lemma total_of : forall o, scalar_ops_total o -> total_ops o.
Proof.
  intros o [H1 H2]. split.
  - intros a b. destruct (H1 a b) as [U T]. destruct (div o a b); cbn; auto; [apply T|apply U]; eexists; reflexivity.
  - intros a. destruct (H2 a) as [U T]. destruct (fsqrt o a); cbn; auto; [apply T|apply U]; eexists; reflexivity.
Qed.
Lemma safe_not : forall A (P : A -> Prop) (r : res A), safeP P r -> ~ is_ub r /\ ~ is_throw r /\ forall a, r = Ok a -> P a.
Proof.
  intros A P r H. destruct r; cbn in H; try contradiction; split; try (intros [? ?]; discriminate); split; try (intros [? ?]; discriminate); intros a0 E; inversion E; subst; auto.
Qed.

Lemma run_safe : forall o (s : solver (T o)) A C b x e k, scalar_ops_total o -> ready (zero o) A C ->
  length b = cm A -> length x = cm A -> (forall w, s = SsorCG w -> cm A <> 0) ->
  safeP (fun q => length (fst q) = cm A) (run o s C b x e k).
Proof.
  intros o s A C b x e k TO RD Lb Lx NE. apply total_of in TO. destruct (ready_wf _ _ _ _ RD) as [W [M U]].
  destruct s; cbn [run].
  - apply (safe_cg o TO C b x e k (cm A)); auto.
  - apply (safe_jacobi o TO C b x e k (cm A)); auto.
  - specialize (NE _ eq_refl). apply (safe_ssor_pcg o TO C b x omega e k (cm A)); auto; lia.
  - apply (safe_ic_pcg o TO C b x e k (cm A)); auto.
Qed.
Lemma run_in_bounds : forall o (s : solver (T o)) A C b x e k, scalar_ops_total o -> ready (zero o) A C ->
  length b = cm A -> length x = cm A -> (forall w, s = SsorCG w -> cm A <> 0) ->
  ~ is_ub (run o s C b x e k) /\ ~ is_throw (run o s C b x e k) /\
  forall q, run o s C b x e k = Ok q -> length (fst q) = cm A.
Proof. intros. apply (safe_not _ (fun q => length (fst q) = cm A)). apply run_safe; auto. Qed.
Lemma precond_in_bounds : forall o A C r cv w, scalar_ops_total o -> ready (zero o) A C -> cm A <> 0 ->
  length r = cm A -> length cv = cm A ->
  ~ is_ub (ssor o C r cv w) /\ ~ is_throw (ssor o C r cv w) /\ forall z, ssor o C r cv w = Ok z -> length z = cm A.
Proof.
  intros o A C r cv w TO RD NE Lr Lc. apply total_of in TO. destruct (ready_wf _ _ _ _ RD) as [W [M U]].
  apply safe_not. apply (safe_ssor o TO C r cv w (cm A)); auto; lia.
Qed.
Lemma ic_in_bounds : forall o A C, scalar_ops_total o -> ready (zero o) A C ->
  ~ is_ub (ic_decomposition o C) /\ ~ is_throw (ic_decomposition o C) /\
  forall L, ic_decomposition o C = Ok L -> pattern_of C L.
Proof.
  intros o A C TO RD. apply total_of in TO. destruct (ready_wf _ _ _ _ RD) as [W [M U]].
  pose proof (safe_ic_decomposition o TO C W) as SF. apply safe_not in SF. destruct SF as [S1 [S2 S3]]. split; auto. split; auto.
  intros L E. destruct (S3 L E) as [E1 [E2 [E3 [E4 [E5 E6]]]]]. unfold pattern_of; auto.
Qed.

Lemma forM_down_ub : forall X (body : nat -> X -> res X) n s, 0 < n -> is_ub (body (n - 1) s) -> is_ub (forM_down n body s).
Proof. intros X body n s H [w E]. destruct n as [|n]; [lia|]. cbn. replace (S n - 1) with n in E by lia. rewrite E. cbn. eexists; reflexivity. Qed.
Lemma u32_sub_01 : 1 <= u32_sub 0 1.
Proof. assert (E : (Z.of_nat (u32_sub 0 1) = 2 ^ 32 - 1)%Z) by (unfold u32_sub; rewrite Z2Nat.id; [reflexivity|vm_compute; discriminate]). lia. Qed.
Lemma ssor_empty : forall o (C : csr (T o)) r cv w, wf_csr C -> m C = 0 -> is_ub (ssor o C r cv w).
Proof.
  intros o C r cv w W M. pose proof (wf_rp C W) as L. unfold ssor. rewrite M. rewrite !M in L. cbn [forM_up forM_from bind].
  apply forM_down_ub; [lia|]. pose proof u32_sub_01.
  destruct (get_ge _ (row_ptr C) (u32_sub 0 1 + 1 - 1)) as [s E]; [lia|]. rewrite E. cbn. eexists; reflexivity.
Qed.
Lemma ssor_solver_empty : forall o A C b x w e k, scalar_ops_total o -> ready (zero o) A C -> cm A = 0 -> length b = 0 -> length x = 0 ->
  is_ub (run o (SsorCG w) C b x e k).
Proof.
  intros o A C b x w e k TO RD Z Lb Lx. apply total_of in TO. destruct (ready_wf _ _ _ _ RD) as [W [M U]]. cbn [run]. unfold ssor_pcg, initial_residual.
  destruct b; [|discriminate]. rewrite Z in M.
  pose proof (safe_mult_sym o C [] x 0 W M eq_refl Lx) as SM. cbn [length zeros repeat]. change (zeros o 0) with (@nil (T o)).
  assert (ER : exists r, mult_sym o [] C x = Ok r) by (unfold mult_sym; rewrite M; cbn; eauto).
  destruct ER as [r ER]. rewrite ER. cbn [bind zip2]. rewrite ER in SM. cbn in SM.
  assert (EZ : zip2 o (sub o) [] r = Ok []) by (destruct r; reflexivity). try rewrite EZ. cbn [bind].
  destruct (ssor_empty o C [] [] w W M) as [s E]. rewrite E. cbn. eexists; reflexivity.
Qed.

Local Open Scope R_scope.
(** ** Real arithmetic *)
Lemma total_ROps : scalar_ops_total ROps.
Proof.
  split; cbn; intros; [unfold Rdivr; destruct (Req_EM_T b 0)|unfold Rsqrtr; destruct (Rlt_dec a 0)]; split; intros [? ?]; discriminate.
Qed.

Section OnR.
Variables (A : coo R) (C : csr R).
Hypothesis RD : ready 0 A C.
Lemma rW : wf_csr C. Proof. apply (ready_wf _ _ _ _ RD). Qed.
Lemma rM : m C = cm A. Proof. apply (ready_wf _ _ _ _ RD). Qed.
Lemma rU : is_u32 (m C). Proof. rewrite rM. apply (ready_wf _ _ _ _ RD). Qed.
Lemma rE : forall i j, (i < cm A)%nat -> (j < cm A)%nat -> ent C i j = value 0 A i j.
Proof. destruct RD as [W [F [D E]]]. destruct (built A W F D) as [C1 [E1 [_ [_ H]]]]. rewrite E in E1; inversion E1; subst; auto. Qed.
Lemma rD : forall i, (i < cm A)%nat -> vget (diag C) i = value 0 A i i.
Proof. intros i Hi. rewrite <- ent_diag. apply rE; auto. Qed.
Lemma row_am : forall x i, (i < cm A)%nat -> row A x i = am (m C) (ent C) (vget x) i.
Proof. intros x i Hi. unfold row, am. rewrite rM. apply sumn_ext. intros j Hj. rewrite rE; auto. Qed.
Lemma resid_eq : forall b x, residual_norm A b x = sqrt (resid_sq C b x).
Proof.
  intros b x. unfold residual_norm, resid_sq, dotn. rewrite rM. f_equal. apply sumn_ext. intros i Hi. unfold resid. rewrite !row_am by auto. rewrite rM. auto.
Qed.
Lemma resid_sq_nonneg : forall b x, 0 <= resid_sq C b x.
Proof. intros; apply dotn_nonneg. Qed.
Lemma sqrt_lt_abs : forall s e, 0 <= s -> (s < e * e <-> sqrt s < Rabs e).
Proof.
  intros s e H. rewrite <- (sqrt_Rsqr_abs e). unfold Rsqr. split; intros Q.
  - apply sqrt_lt_1; auto. apply Rle_0_sqr.
  - apply sqrt_lt_0_alt; auto.
Qed.
Lemma sqrt_ge_abs : forall s e, 0 <= s -> e * e <= s -> Rabs e <= sqrt s.
Proof. intros s e H Q. rewrite <- (sqrt_Rsqr_abs e). apply sqrt_le_1; auto. apply Rle_0_sqr. Qed.
Lemma energy_eq : forall x xs, energy_error A x xs = energy (m C) (ent C) (vget x) (vget xs).
Proof.
  intros x xs. unfold energy_error, energy. rewrite <- quad_dotn. unfold quad. rewrite rM. apply sumn_ext. intros i Hi. apply sumn_ext. intros j Hj. rewrite rE; auto.
Qed.
Lemma spd_eq : spd A -> posdef (m C) (ent C).
Proof.
  intros P x [i [Hi N]]. rewrite rM in Hi. specialize (P x ltac:(exists i; auto)). unfold quad in *. rewrite rM.
  rewrite (sumn_ext (cm A) _ (fun i => sumn (cm A) (fun j => x i * value 0 A i j * x j))); auto. intros a Ha. apply sumn_ext. intros c Hc. rewrite rE; auto.
Qed.
Lemma sol_eq : forall b xs, is_solution A b xs -> forall i, (i < m C)%nat -> am (m C) (ent C) (vget xs) i = vget b i.
Proof. intros b xs H i Hi. rewrite rM in Hi. rewrite <- row_am by auto. apply H; auto. Qed.

(** *** SSOR *)
Lemma upper_w_sum : forall w z j, (j < cm A)%nat -> sumn (cm A) (fun k => upper_w A w j k * vget z k) = ent C j j * vget z j + w * upper_sum (m C) (ent C) (vget z) j.
Proof.
  intros w z j Hj. unfold upper_sum. rewrite rM, <- sumn_scal.
  rewrite (sumn_ext (cm A) _ (fun k => (if Nat.eqb k j then ent C j j * vget z k else 0) + w * (if Nat.ltb j k then ent C j k * vget z k else 0))).
  - rewrite sumn_plus. rewrite (sumn_delta (cm A) j) by auto. auto.
  - intros k Hk. unfold upper_w. rewrite !rE by auto. destruct (Nat.ltb_spec j k), (Nat.eqb_spec k j); try lia; ring.
Qed.
Lemma lower_w_sum : forall w y j, (j < cm A)%nat -> sumn (cm A) (fun k => lower_w A w j k * y k) = ent C j j * y j + w * lower_sum (m C) (ent C) y j.
Proof.
  intros w z j Hj. unfold lower_sum. rewrite rM, <- sumn_scal.
  rewrite (sumn_ext (cm A) _ (fun k => (if Nat.eqb k j then ent C j j * z k else 0) + w * (if Nat.ltb k j then ent C j k * z k else 0))).
  - rewrite sumn_plus. rewrite (sumn_delta (cm A) j) by auto. auto.
  - intros k Hk. unfold lower_w. rewrite !rE by auto. destruct (Nat.ltb_spec k j), (Nat.eqb_spec k j); try lia; ring.
Qed.
Lemma ssor_rel_matrix : forall w r z, (forall i, (i < cm A)%nat -> value 0 A i i <> 0) ->
  ((exists y, ssor_rel (m C) (ent C) w (vget r) y (vget z)) <-> forall i, (i < cm A)%nat -> ssor_matrix_times A w z i = w * (2 - w) * vget r i).
Proof.
  intros w r z D. split.
  - intros [y [H1 H2]] i Hi. unfold ssor_matrix_times. rewrite <- (H1 i) by (rewrite rM; auto). rewrite <- lower_w_sum by auto.
    apply sumn_ext. intros j Hj. rewrite upper_w_sum by auto. rewrite (H2 j) by (rewrite rM; auto). rewrite rE by auto. field. apply D; auto.
  - intros H. set (y := fun j => / value 0 A j j * sumn (cm A) (fun k => upper_w A w j k * vget z k)). exists y. split; intros i Hi; rewrite rM in Hi.
    + rewrite <- H by auto. rewrite <- lower_w_sum by auto. unfold ssor_matrix_times, y. apply sumn_ext; intros; ring.
    + rewrite <- upper_w_sum by auto. unfold y. rewrite rE by auto. field. apply D; auto.
Qed.
Hypothesis N1 : cm A <> 0%nat.
Hypothesis D : forall i, (i < cm A)%nat -> value 0 A i i <> 0.
Lemma rDn : forall i, (i < m C)%nat -> vget (diag C) i <> 0.
Proof. intros i Hi. rewrite rM in Hi. rewrite rD by auto. auto. Qed.
Lemma ssor_total : forall w (buf r : list R), length buf = cm A -> length r = cm A ->
  exists z : list R, ssor ROps C buf r w = Ok z /\ length z = cm A /\ forall i, (i < cm A)%nat -> ssor_matrix_times A w z i = w * (2 - w) * vget r i.
Proof.
  intros w buf r Lb Lr. rewrite <- rM in Lb, Lr. destruct (ssor_f_ok C w rW rU) with (r := r) as [y [z [E [Lz RL]]]]; auto; [rewrite rM; lia|apply rDn|].
  exists z. rewrite (ssor_buffer C buf (zeros ROps (m C)) r w) by (auto; apply (len_zeros ROps)). split; auto. split; [rewrite <- rM; auto|].
  apply ssor_rel_matrix; auto. exists (vget y); auto.
Qed.
Lemma ssor_is : forall w (buf r z : list R), length buf = cm A -> length r = cm A -> ssor ROps C buf r w = Ok z ->
  length z = cm A /\ exists y, ssor_rel (m C) (ent C) w (vget r) y (vget z).
Proof.
  intros w buf r z Lb Lr E. destruct (ssor_total w buf r Lb Lr) as [z1 [E1 [Lz H]]]. rewrite E in E1; inversion E1; subst z1. split; auto.
  apply ssor_rel_matrix; auto.
Qed.
Lemma ssor_only : forall w (buf r z z' : list R), length buf = cm A -> length r = cm A -> ssor ROps C buf r w = Ok z ->
  length z' = cm A -> (forall i, (i < cm A)%nat -> ssor_matrix_times A w z' i = w * (2 - w) * vget r i) -> z' = z.
Proof.
  intros w buf r z z' Lb Lr E Lz' H. destruct (ssor_is w buf r z Lb Lr E) as [Lz [y RL]].
  assert (RL' : exists y', ssor_rel (m C) (ent C) w (vget r) y' (vget z')) by (apply ssor_rel_matrix; auto). destruct RL' as [y' RL'].
  apply (list_ext R 0 z' z); [congruence|]. intros i Hi. rewrite Lz' in Hi.
  apply (ssor_unique (m C) (ent C) w (vget r) y' (vget z') y (vget z)); auto; [|rewrite rM; auto].
  intros k Hk. rewrite ent_diag. apply rDn; auto.
Qed.
Lemma dotR_m : forall r z : list R, length r = cm A -> dotR r z = dotn (m C) (vget r) (vget z).
Proof. intros r z L. apply dotR_dotn. rewrite rM; auto. Qed.
Lemma ssor_symm : forall w (buf r z r' z' : list R), w * (2 - w) <> 0 -> length buf = cm A -> length r = cm A -> length r' = cm A ->
  ssor ROps C buf r w = Ok z -> ssor ROps C buf r' w = Ok z' -> dotR r z' = dotR r' z.
Proof.
  intros w buf r z r' z' Hw Lb Lr Lr' E E'. destruct (ssor_is w buf r z Lb Lr E) as [Lz [y RL]]. destruct (ssor_is w buf r' z' Lb Lr' E') as [Lz' [y' RL']].
  rewrite !dotR_m by auto. apply (ssor_symmetric (m C) (ent C) (fun i j _ _ => ent_sym C i j) w _ y _ _ y'); auto.
Qed.
Lemma ssor_pos : forall w (buf r z : list R), 0 < w < 2 -> (forall i, (i < cm A)%nat -> 0 < value 0 A i i) -> length buf = cm A -> length r = cm A ->
  ssor ROps C buf r w = Ok z -> (exists i, (i < cm A)%nat /\ vget r i <> 0) -> 0 < dotR r z.
Proof.
  intros w buf r z Hw DP Lb Lr E [i [Hi NZ]]. destruct (ssor_is w buf r z Lb Lr E) as [Lz [y RL]]. rewrite dotR_m by auto.
  apply (ssor_positive (m C) (ent C) (fun i j _ _ => ent_sym C i j) w _ y); auto.
  - apply Rmult_lt_0_compat; lra.
  - intros k Hk. rewrite rM in Hk. rewrite rE by auto. auto.
  - apply dotn_pos. exists i. rewrite rM; auto.
Qed.
Lemma ssor_lin : forall w t (buf r z r' z' s zs : list R), length buf = cm A -> length r = cm A -> length r' = cm A -> length s = cm A ->
  (forall i, (i < cm A)%nat -> vget s i = vget r i + t * vget r' i) ->
  ssor ROps C buf r w = Ok z -> ssor ROps C buf r' w = Ok z' -> ssor ROps C buf s w = Ok zs ->
  forall i, (i < cm A)%nat -> vget zs i = vget z i + t * vget z' i.
Proof.
  intros w t buf r z r' z' s zs Lb Lr Lr' Ls Hs E E' Es i Hi.
  destruct (ssor_is w buf r z Lb Lr E) as [Lz [y RL]]. destruct (ssor_is w buf r' z' Lb Lr' E') as [Lz' [y' RL']]. destruct (ssor_is w buf s zs Lb Ls Es) as [Lzs [ys RLs]].
  pose proof (ssor_linear (m C) (ent C) w _ _ _ _ _ _ t RL RL') as [L1 L2].
  apply (ssor_unique (m C) (ent C) w (vget s) ys (vget zs) (fun i => y i + t * y' i) (fun i => vget z i + t * vget z' i)); auto; [| |rewrite rM; auto].
  - intros k Hk. rewrite ent_diag. apply rDn; auto.
  - split; intros k Hk; [rewrite L1 by auto|apply L2; auto]. rewrite Hs by (rewrite <- rM; auto). auto.
Qed.
End OnR.

(** ** The four solvers as instances of the two loops *)
Section Runs.
Variables (A : coo R) (C : csr R) (b x : list R).
Hypothesis RD : ready 0 A C.
Hypothesis Lb : length b = cm A.
Hypothesis Lx : length x = cm A.
Notation n := (m C).
Let W := rW A C RD.
Let M := rM A C RD.
Let U := rU A C RD.
Definition r0 : list R := vadd b (-1) (amul C x).
Let Lb' : length b = n. Proof. rewrite M; auto. Qed.
Let Lx' : length x = n. Proof. rewrite M; auto. Qed.
Lemma r0_len : length r0 = n.
Proof. unfold r0, vadd. rewrite mk_length. exact Lb'. Qed.
Lemma r0_res : is_res C b x r0.
Proof. apply res_initial. exact Lb'. Qed.
Lemma zeros_len : forall k, length (zeros ROps k : list R) = k.
Proof. intros k. apply (len_zeros ROps k). Qed.

Lemma cg_run : forall e k, run ROps CG C b x e k = cl C e k 0 x r0 r0.
Proof.
  intros e k. cbn [run]. unfold cg. toR. rewrite (initial_ok C b x W Lb' Lx'). cbn [bind]. fold r0. rewrite squareSum_ok. cbn [bind].
  apply cg_cl; auto; try apply r0_len. rewrite zeros_len. exact Lb'.
Qed.
Lemma jacobi_run : forall e k, (forall i, (i < n)%nat -> vget (diag C) i <> 0) ->
  exists z : list R, hadamard ROps (JP C) r0 = Ok z /\ length z = n /\ run ROps JacobiCG C b x e k = gl (hadamard ROps (JP C)) C e k 0 x r0 z z.
Proof.
  intros e k D. destruct (jp_ok C r0 r0_len) as [z [E [Lz _]]]. exists z. split; auto. split; auto.
  cbn [run]. unfold jacobi_pcg. toR. rewrite (initial_ok C b x W Lb' Lx'). cbn [bind]. fold r0. rewrite Lb'.
  cbn [div one ROps]. toR. rewrite (jacobi_P C W D). cbn [bind]. fold (JP C). toR. rewrite E. cbn [bind].
  apply jacobi_gl; auto; try apply r0_len; try apply zeros_len. unfold JP; apply mk_length.
Qed.
Lemma jacobi_run_bad : forall e k i, (i < n)%nat -> vget (diag C) i = 0 -> is_nonfin (run ROps JacobiCG C b x e k).
Proof.
  intros e k i Hi Z. cbn [run]. unfold jacobi_pcg. toR. rewrite (initial_ok C b x W Lb' Lx'). cbn [bind]. rewrite Lb'.
  cbn [div one ROps]. toR. destruct (jacobi_P_bad C W i Hi Z) as [s E]. rewrite E. cbn. eexists; reflexivity.
Qed.
Lemma ssor_run : forall w e k, (1 <= n)%nat -> safeP (fun z : list R => length z = n) (ssor_f C w r0) /\
  run ROps (SsorCG w) C b x e k =
    (z <- ssor_f C w r0 ;; if Rltb (dotR r0 r0) (e * e) then Ok (x, Some O) else gl (ssor_f C w) C e k 0 x r0 z z).
Proof.
  intros w e k N1. pose proof (safe_ssor ROps total_R C (zeros ROps n) r0 w n W U N1 eq_refl (len_zeros ROps n) r0_len) as S0.
  split; [exact S0|]. cbn [run]. unfold ssor_pcg. toR. rewrite (initial_ok C b x W Lb' Lx'). cbn [bind]. fold r0. rewrite Lb'. fold (ssor_f C w r0).
  unfold ssor_f at 1. unfold ssor_f in S0. unfold ssor_f at 1. toR.
  destruct (ssor ROps C (zeros ROps n) r0 w) as [z|?|?|?]; cbn in S0; try contradiction; cbn [bind]; auto.
  rewrite squareSum_ok. cbn [bind]. pose proof r0_len. toR. rewrite dot_ok by (unfold len in S0; toR; rewrite r0_len, S0; lia). cbn [bind]. cbn [ltb mul ROps].
  destruct (Rltb _ _); auto. apply ssor_gl; auto. apply zeros_len.
Qed.
Lemma ic_run : forall e k, run ROps CholeskyCG C b x e k =
  (L <- ic_decomposition ROps C ;; z <- ic_f L r0 ;; if Rltb (dotR r0 r0) (e * e) then Ok (x, Some O) else gl (ic_f L) C e k 0 x r0 z z).
Proof.
  intros e k. cbn [run]. unfold ic_pcg. toR. rewrite (initial_ok C b x W Lb' Lx'). cbn [bind]. fold r0.
  pose proof (safe_ic_decomposition ROps total_R C W) as S0. toR.
  destruct (ic_decomposition ROps C) as [L|?|?|?]; cbn [bind]; auto. cbn in S0.
  pose proof (same_pattern_wf C L W S0) as WL. destruct S0 as [_ [_ [ML _]]]. toR. rewrite Lb'. rewrite <- ML at 1 2.
  assert (Lr : length r0 = m L) by (rewrite ML; apply r0_len).
  destruct (mult_lower_ok L (zeros ROps (m L)) r0 WL (zeros_len _) Lr) as [t [E1 [M1 _]]].
  destruct (mult_upper_ok L (zeros ROps (m L)) t WL (zeros_len _) M1) as [z [E2 [M2 _]]].
  unfold ic_f at 1. unfold ic_apply. toR. rewrite E1. cbn [bind]. rewrite E2. cbn [bind snd]. rewrite squareSum_ok. cbn [bind ltb mul ROps].
  destruct (Rltb _ _); auto. pose proof r0_len. apply ic_gl; auto; try congruence. apply zeros_len.
Qed.

(** *** C10 *)
Lemma stops_residual : forall s e k x' st, run ROps s C b x e k = Ok (x', st) ->
  length x' = cm A /\ match st with
    | Some _ => residual_norm A b x' < Rabs e
    | None => (k = O -> x' = x) /\ (k <> O -> Rabs e <= residual_norm A b x') end.
Proof.
  intros s e k x' st E. rewrite (resid_eq A C RD). pose proof (resid_sq_nonneg C b x') as NN.
  assert (NE : n <> O \/ n = O) by lia.
  assert (K : (length x' = n /\ (k = O \/ match st with Some _ => resid_sq C b x' < e * e | None => e * e <= resid_sq C b x' end) /\
     match st with Some q => (k <> O \/ resid_sq C b x' < e * e) | None => k = O -> x' = x end)).
  { assert (G : forall f z, (forall r, length r = n -> safeP (fun z : list R => length z = n) (f r)) -> length z = n ->
        gl f C e k 0 x r0 z z = Ok (x', st) -> length x' = n /\ (k = O \/ match st with Some _ => resid_sq C b x' < e * e | None => e * e <= resid_sq C b x' end) /\
        match st with Some q => (k <> O \/ resid_sq C b x' < e * e) | None => k = O -> x' = x end).
    { intros f z Hf Lz Eg. destruct (gl_residual f C b e Hf k 0 x r0 z z (x', st) Lx' r0_len Lz Lz r0_res Eg) as [Q1 [Q2 Q3]]. cbn in *.
      split; auto. split; auto. destruct st; auto. left; lia. }
    assert (EI : Rltb (dotR r0 r0) (e * e) = true -> Ok (x, Some O) = Ok (x', st) -> length x' = n /\ (k = O \/ match st with Some _ => resid_sq C b x' < e * e | None => e * e <= resid_sq C b x' end) /\
        match st with Some q => (k <> O \/ resid_sq C b x' < e * e) | None => k = O -> x' = x end).
    { intros B Eq. inversion Eq; subst. apply Rltb_true in B. rewrite (res_sq C b x r0 r0_len r0_res) in B. auto. }
    destruct s as [| |w|].
    - rewrite cg_run in E. destruct (cl_residual C b e k 0 x r0 r0 (x', st) Lx' r0_len r0_len r0_res E) as [Q1 [Q2 Q3]]. cbn in *.
      split; auto. split; auto. destruct st; auto. left; lia.
    - destruct (all_dec n (fun i => vget (diag C) i <> 0)) as [D|[i [Hi D]]].
      + intros i. destruct (Req_EM_T (vget (diag C) i) 0); [right; auto|left; auto].
      + destruct (jacobi_run e k D) as [z [Ez [Lz Er]]]. rewrite Er in E. apply (G (hadamard ROps (JP C)) z); auto.
        intros r Lr. destruct (jp_ok C r Lr) as [zz [Ezz [Lzz _]]]. rewrite Ezz. auto.
      + destruct (Req_EM_T (vget (diag C) i) 0) as [Z|Z]; [|contradiction]. destruct (jacobi_run_bad e k i Hi Z) as [q Q]. rewrite Q in E. discriminate.
    - destruct NE as [NE|NE].
      + destruct (ssor_run w e k ltac:(lia)) as [S0 Er]. apply (eq_trans (eq_sym Er)) in E. destruct (ssor_f C w r0) as [z|?|?|?]; cbn [bind] in E; try discriminate. cbn in S0.
        destruct (Rltb _ _) eqn:B; [apply EI; auto|]. apply (G (ssor_f C w) z); auto. intros r Lr. apply (safe_ssor ROps total_R C (zeros ROps n) r w n W U); auto; [lia|]. apply (len_zeros ROps).
      + assert (Z : cm A = O) by (pose proof (rM A C RD); lia).
        destruct (ssor_solver_empty ROps A C b x w e k total_ROps RD) as [q Q]; [exact Z|rewrite <- Z; exact Lb|rewrite <- Z; exact Lx|]. apply (eq_trans (eq_sym Q)) in E. discriminate.
    - rewrite ic_run in E. pose proof (safe_ic_decomposition ROps total_R C W) as S0. toR.
      destruct (ic_decomposition ROps C) as [L|?|?|?]; cbn [bind] in E; try discriminate. cbn in S0.
      pose proof (same_pattern_wf C L W S0) as WL. destruct S0 as [_ [_ [ML _]]]. toR.
      destruct (ic_f_ok L WL r0 ltac:(rewrite ML; apply r0_len)) as [z [Ez [Lz _]]]. rewrite Ez in E. cbn [bind] in E.
      destruct (Rltb _ _) eqn:B; [apply EI; auto|]. apply (G (ic_f L) z); auto; [|congruence].
      intros r Lr. destruct (ic_f_ok L WL r ltac:(congruence)) as [zz [Ezz [Lzz _]]]. rewrite Ezz. cbn. congruence. }
  destruct K as [K1 [K2 K3]]. split; [congruence|]. destruct st.
  - apply sqrt_lt_abs; auto. destruct K2 as [K2|K2]; auto. destruct K3; auto. contradiction.
  - split; auto. intros NK. destruct K2 as [K2|K2]; [contradiction|]. apply sqrt_ge_abs; auto.
Qed.

(** *** SPD systems *)
Hypothesis SPD : spd A.
Let PD : posdef n (ent C) := spd_eq A C RD SPD.
Let Dp : forall i, (i < n)%nat -> 0 < vget (diag C) i.
Proof. intros i Hi. rewrite <- ent_diag. apply (posdef_diag n); auto. Qed.
Let Dn : forall i, (i < n)%nat -> vget (diag C) i <> 0.
Proof. intros i Hi. pose proof (Dp i Hi). lra. Qed.

Definition good_pre (f : list R -> res (list R)) (K : R) : Prop :=
  0 < K /\ K <= 2 ^ 52 /\ (forall r : list R, length r = n -> exists z : list R, f r = Ok z /\ length z = n) /\ (forall r s zr zs : list R, length r = n -> length s = n -> f r = Ok zr -> f s = Ok zs -> dotn n (vget r) (vget zs) = dotn n (vget s) (vget zr)) /\ (forall r z : list R, length r = n -> f r = Ok z -> 0 < dotn n (vget r) (vget r) -> 0 < dotn n (vget r) (vget z)) /\ (forall r z : list R, length r = n -> f r = Ok z -> dotn n (vget z) (am n (ent C) (vget z)) <= K * dotn n (vget r) (vget z)).

Lemma INR_u32 : INR n + 1 <= 2 ^ 52.
Proof.
  assert (H : (Z.of_nat n < 2 ^ 32)%Z) by (pose proof U as H; unfold is_u32 in H; change two32 with 4294967296%N in H; lia).
  rewrite INR_IZR_INZ. apply IZR_lt in H. apply Rle_trans with (IZR (2 ^ 32) + 1); [lra|]. cbn. lra.
Qed.

Lemma pre_inst : forall s, s <> CG -> usable s A C -> exists f K z, good_pre f K /\ f r0 = Ok z /\ (forall e k, s = JacobiCG \/ e * e <= dotR r0 r0 -> run ROps s C b x e k = gl f C e k 0 x r0 z z) /\ (forall e k, s <> JacobiCG -> dotR r0 r0 < e * e -> run ROps s C b x e k = Ok (x, Some O)).
Proof.
  intros s NC US. destruct s as [| |w|]; [contradiction| | |].
  - destruct (jacobi_run 0 0 Dn) as [z [Ez [Lz _]]].
    exists (hadamard ROps (JP C)), (INR n + 1), z. split; [|split; [auto|split; [|congruence]]].
    + split; [pose proof (pos_INR n); lra|]. split; [apply INR_u32|].
      split; [intros r Lr; destruct (jp_ok C r Lr) as [zz [E [L _]]]; eauto|].
      split; [apply jp_sym|]. split; [apply jp_pos; auto|apply jp_bound; auto].
    + intros e k _. destruct (jacobi_run e k Dn) as [z1 [Ez1 [_ E]]]. rewrite Ez in Ez1; inversion Ez1; subst. auto.
  - destruct US as [Hw NE]. assert (N1 : (1 <= n)%nat) by (rewrite M; lia). assert (WW : 0 < w * (2 - w)) by (apply Rmult_lt_0_compat; lra).
    destruct (ssor_f_ok C w W U N1 Dn r0 r0_len) as [y [z [E [Lz _]]]].
    exists (ssor_f C w), 1, z. split; [|split; [auto|split]].
    + split; [lra|]. split; [lra|].
      split; [intros r Lr; destruct (ssor_f_ok C w W U N1 Dn r Lr) as [? [zz [E1 [L1 _]]]]; eauto|].
      split; [apply (ssor_f_sym C w W U N1 Dn WW)|]. split; [apply (ssor_f_pos C w W U N1 Dn WW Dp)|apply (ssor_f_bound C w W U N1 Dn WW Dp)].
    + intros e k H. destruct (ssor_run w e k N1) as [_ Er]. rewrite E in Er. cbn [bind] in Er. toR. etransitivity; [exact Er|].
      destruct (Rltb _ _) eqn:B; auto. apply Rltb_true in B. destruct H as [H|H]; [discriminate|lra].
    + intros e k _ H. destruct (ssor_run w e k N1) as [_ Er]. rewrite E in Er. cbn [bind] in Er. etransitivity; [exact Er|].
      destruct (Rltb _ _) eqn:B; auto. apply Rltb_false in B. lra.
  - destruct US as [L [EL HB]]. pose proof (safe_ic_decomposition ROps total_R C W) as S0. toR. rewrite EL in S0. cbn in S0.
    pose proof (same_pattern_wf C L W S0) as WL. destruct S0 as [_ [_ [ML _]]]. toR.
    assert (DL : forall i, (i < m L)%nat -> vget (diag L) i <> 0) by (intros i Hi; apply (ic_diag_nz C L W EL); congruence).
    destruct (ic_f_ok L WL r0 ltac:(rewrite ML; apply r0_len)) as [z [Ez [Lz _]]].
    exists (ic_f L), (2 ^ 52), z. split; [|split; [auto|split]].
    + split; [lra|]. split; [lra|]. rewrite <- ML.
      split; [intros r Lr; destruct (ic_f_ok L WL r Lr) as [zz [E1 [L1 _]]]; eauto|].
      split; [apply (ic_f_sym L WL)|]. split; [apply (ic_f_pos L WL DL)|].
      intros r zz Lr Ezz. unfold ic_f in Ezz.
      destruct (ic_apply ROps L (zeros ROps (m L)) (zeros ROps (m L)) r) as [[t' z']|?|?|?] eqn:EA; cbn [bind snd] in Ezz; try discriminate. inversion Ezz; subst z'.
      assert (LL : m L = cm A) by congruence.
      pose proof (HB (zeros ROps (m L)) (zeros ROps (m L)) r zz t') as Q. toR.
      assert (Q' := Q ltac:(rewrite <- LL; apply zeros_len) ltac:(rewrite <- LL; apply zeros_len) ltac:(congruence) EA). clear Q.
      rewrite (dotR_dotn _ _ (m L) Lr) in Q'. eapply Rle_trans; [|exact Q']. apply Req_le. rewrite <- quad_dotn. unfold quad. rewrite LL.
      apply sumn_ext. intros i Hi. apply sumn_ext. intros j Hj. rewrite (rE A C RD); auto.
    + intros e k H. rewrite ic_run. toR. rewrite EL. cbn [bind]. rewrite Ez. cbn [bind].
      destruct (Rltb _ _) eqn:B; auto. apply Rltb_true in B. destruct H as [H|H]; [discriminate|lra].
    + intros e k _ H. rewrite ic_run. toR. rewrite EL. cbn [bind]. rewrite Ez. cbn [bind].
      destruct (Rltb _ _) eqn:B; auto. apply Rltb_false in B. lra.
Qed.

Let r0sq : dotR r0 r0 = resid_sq C b x := res_sq C b x r0 r0_len r0_res.
Lemma resid_pos_sq : 0 < residual_norm A b x <-> dotR r0 r0 <> 0.
Proof.
  rewrite (resid_eq A C RD), r0sq. pose proof (resid_sq_nonneg C b x). split; intros Q.
  - intros Z. rewrite Z, sqrt_0 in Q. lra.
  - apply sqrt_lt_R0. lra.
Qed.
Lemma sq_pos : forall e : R, e <> 0 -> 0 < e * e.
Proof. intros e H. apply Rsqr_pos_lt in H. exact H. Qed.

Lemma all_finish : forall s e k, usable s A C -> e <> 0 -> (s = JacobiCG -> 0 < residual_norm A b x) ->
  exists x' st, run ROps s C b x e k = Ok (x', st) /\ (s <> CG -> st = None -> (S k <= cm A)%nat).
Proof.
  intros s e k US He HJ. destruct (Req_EM_T 0 0) as [_|]; [|contradiction].
  assert (SD : s = CG \/ s <> CG) by (destruct s; [left|right|right|right]; congruence). destruct SD as [->|NC].
  - rewrite cg_run. destruct (cl_completes C e He k 0 x r0 r0 r0_len Lx') as [[x' st] E]. exists x', st. split; [exact E|congruence].
  - destruct (pre_inst s NC US) as [f [K [z [[K1 [K2 [F1 [F2 [F3 F4]]]]] [Ez [R1 R2]]]]]].
    destruct (Rlt_dec (dotR r0 r0) (e * e)) as [B|B].
    + assert (JD : s = JacobiCG \/ s <> JacobiCG) by (destruct s; [right|left|right|right]; congruence). destruct JD as [J1|J1].
      * rewrite R1 by auto. assert (NZ : dotR r0 r0 <> 0) by (apply resid_pos_sq; auto).
        pose proof (inv_start C f F1 F3 r0 z r0_len Ez NZ) as I0.
        destruct (gl_completes C PD f K K2 F1 F2 F3 F4 e He k 0 0 x r0 z z I0) as [[x' st] [E Q]]. exists x', st. split; auto. intros _ HN. specialize (Q HN). rewrite <- M. lia.
      * rewrite R2 by auto. exists x, (Some O). split; auto. discriminate.
    + assert (NZ : dotR r0 r0 <> 0) by (pose proof (sq_pos e He); lra). rewrite R1 by (right; lra).
      pose proof (inv_start C f F1 F3 r0 z r0_len Ez NZ) as I0.
      destruct (gl_completes C PD f K K2 F1 F2 F3 F4 e He k 0 0 x r0 z z I0) as [[x' st] [E Q]]. exists x', st. split; auto. intros _ HN. specialize (Q HN). rewrite <- M. lia.
Qed.
Lemma finite_stop : forall s e k, usable s A C -> s <> CG -> e <> 0 -> (s = JacobiCG -> 0 < residual_norm A b x) -> (cm A <= k)%nat ->
  exists x' i, run ROps s C b x e k = Ok (x', Some i) /\ residual_norm A b x' < Rabs e.
Proof.
  intros s e k US NC He HJ Hk. destruct (all_finish s e k US He HJ) as [x' [st [E Q]]]. destruct st as [i|].
  - exists x', i. split; auto. apply (stops_residual s e k x' (Some i) E).
  - specialize (Q NC eq_refl). lia.
Qed.
Lemma energy_decreases : forall s e k x1 xs, usable s A C -> e <> 0 -> 0 < residual_norm A b x -> is_solution A b xs ->
  run ROps s C b x e k = Ok (x1, None) ->
  exists x2 st, run ROps s C b x e (S k) = Ok (x2, st) /\ energy_error A x2 xs < energy_error A x1 xs.
Proof.
  intros s e k x1 xs US He HR HS E. rewrite !(energy_eq A C RD). pose proof (sol_eq A C RD b xs HS) as HX.
  pose proof (stops_residual s e k x1 None E) as [Lx1 [SR0 SR1]].
  assert (NZ : dotR r0 r0 <> 0) by (apply resid_pos_sq; auto).
  assert (SD : s = CG \/ s <> CG) by (destruct s; [left|right|right|right]; congruence). destruct SD as [->|NC].
  - rewrite cg_run in *. assert (HJ : J C b x r0 r0).
    { split; [exact Lx'|]. split; [apply r0_len|]. split; [apply r0_len|]. split; [apply r0_res|]. rewrite (dotR_dotn _ _ n r0_len). lra. }
    destruct (cl_energy C PD e b xs He HX k 0 x r0 r0 x1 HJ E) as [[x2 st] [E2 [_ Q]]]. exists x2, st. split; auto. rewrite !(energy_eq A C RD). apply Q.
    destruct (Nat.eq_dec k 0) as [K0|K0].
    + rewrite (SR0 K0), <- r0sq. pose proof (dotR_nonneg r0). lra.
    + specialize (SR1 K0). rewrite (resid_eq A C RD) in SR1. pose proof (Rabs_pos_lt e He) as PA.
      pose proof (resid_sq_nonneg C b x1) as NN. destruct (Req_dec (resid_sq C b x1) 0) as [Z|Z]; [rewrite Z, sqrt_0 in SR1; lra|lra].
  - destruct (pre_inst s NC US) as [f [K [z [[K1 [K2 [F1 [F2 [F3 F4]]]]] [Ez [R1 R2]]]]]].
    pose proof (inv_start C f F1 F3 r0 z r0_len Ez NZ) as I0.
    assert (Q : s = JacobiCG \/ e * e <= dotR r0 r0).
    { assert (JD : s = JacobiCG \/ s <> JacobiCG) by (destruct s; [right|left|right|right]; congruence). destruct JD as [J1|J1]; auto.
      right. destruct (Rlt_dec (dotR r0 r0) (e * e)) as [B|B]; [|lra]. rewrite R2 in E by auto. discriminate. }
    rewrite R1 in * by auto.
    destruct (gl_energy C PD f K K2 F1 F2 F3 F4 e b xs He HX k 0 0 x r0 z z x1 I0 Lx' r0_res E) as [[x2 st] [E2 Q2]].
    exists x2, st. rewrite !(energy_eq A C RD). auto.
Qed.
Lemma cg_finite : forall lam e k, 0 < lam -> (forall v, lam * sumn (cm A) (fun i => v i * v i) <= quad (cm A) (value 0 A) v) ->
  / 2 ^ 52 <= lam * (e * e) -> Rabs e <= residual_norm A b x -> (cm A <= k)%nat ->
  exists x' i, run ROps CG C b x e k = Ok (x', Some i) /\ residual_norm A b x' < Rabs e.
Proof.
  intros lam e k LP LB CL HR Hk.
  assert (LB' : forall v, lam * dotn n v v <= dotn n v (am n (ent C) v)).
  { intros v. rewrite <- quad_dotn. unfold dotn, quad. rewrite M. eapply Rle_trans; [apply LB|]. apply Req_le. unfold quad.
    apply sumn_ext. intros i Hi. apply sumn_ext. intros j Hj. rewrite (rE A C RD); auto. }
  assert (NZ : e * e <= dotR r0 r0).
  { rewrite (resid_eq A C RD), <- r0sq in HR. destruct (Rlt_dec (dotR r0 r0) (e * e)) as [B|B]; [|lra]. apply (sqrt_lt_abs (dotR r0 r0) e (dotR_nonneg r0)) in B. lra. }
  pose proof (e_nz lam e CL) as He. pose proof (sq_pos e He) as EP.
  assert (I0 : Inv C (fun r : list R => Ok r) 0 r0 r0 r0).
  { apply (inv_start C (fun r : list R => Ok r)); [intros r L; eauto|apply fid_pos|apply r0_len|reflexivity|lra]. }
  destruct (cl_terminates C PD lam e LB' LP CL k 0 0 x r0 r0 I0 NZ) as [[x' st] [E Q]]. cbn in Q.
  destruct st as [i|]; [|specialize (Q eq_refl); rewrite M in Q; lia].
  exists x', i. rewrite cg_run. split; auto. apply (stops_residual CG e k x' (Some i)). rewrite cg_run. auto.
Qed.
Lemma more_limit : forall s e k x1 i, usable s A C -> run ROps s C b x e k = Ok (x1, Some i) ->
  forall k', (k <= k')%nat -> run ROps s C b x e k' = Ok (x1, Some i).
Proof.
  intros s e k x1 i US E k' Hk.
  assert (SD : s = CG \/ s <> CG) by (destruct s; [left|right|right|right]; congruence). destruct SD as [->|NC].
  - rewrite cg_run in *. eapply cl_stopped; eauto.
  - destruct (pre_inst s NC US) as [f [K [z [_ [Ez [R1 R2]]]]]].
    assert (JD : s = JacobiCG \/ s <> JacobiCG) by (destruct s; [right|left|right|right]; congruence).
    destruct (Rlt_dec (dotR r0 r0) (e * e)) as [B|B].
    + destruct JD as [J1|J1]; [rewrite R1 in * by auto; eapply gl_stopped; eauto|]. rewrite R2 in * by auto. auto.
    + rewrite R1 in * by (right; lra). eapply gl_stopped; eauto.
Qed.
Lemma jacobi_exact_start : forall e k, k <> O -> residual_norm A b x = 0 -> is_nonfin (run ROps JacobiCG C b x e k).
Proof.
  intros e k NK HR. assert (Z : dotR r0 r0 = 0).
  { destruct (Req_dec (dotR r0 r0) 0) as [|NZ]; auto. apply resid_pos_sq in NZ. lra. }
  destruct (jacobi_run e k Dn) as [z [Ez [Lz Er]]]. rewrite Er. destruct k as [|k]; [contradiction|]. cbn [gl].
  assert (R0 : forall i, (i < n)%nat -> vget r0 i = 0) by (rewrite (dotR_dotn _ _ n r0_len) in Z; intros i Hi; apply (dotn_zero n _ Z i Hi)).
  assert (Z0 : forall i, (i < n)%nat -> vget z i = 0).
  { intros i Hi. destruct (jp_ok C r0 r0_len) as [z1 [E1 [_ V]]]. rewrite Ez in E1; inversion E1; subst z1. rewrite V, R0 by auto. ring. }
  assert (P0 : dotR z (amul C z) = 0) by (rewrite (dotR_dotn _ _ n Lz); apply dotn_0l; auto).
  rewrite P0. destruct (Rdivr_zero (dotR r0 z)) as [q Q]. rewrite Q. cbn. eexists; reflexivity.
Qed.
End Runs.

(** *** C13 *)
Lemma ic_preconditioner : forall (A : coo R) (C L : csr R), ready 0 A C -> ic_decomposition ROps C = Ok L ->
  forall t u r, length t = cm A -> length u = cm A -> length r = cm A ->
  exists t' z, ic_apply ROps L t u r = Ok (t', z) /\ length z = cm A /\   (forall r' t'' z', length r' = cm A -> ic_apply ROps L t u r' = Ok (t'', z') -> dotR r z' = dotR r' z) /\   ((exists i, (i < cm A)%nat /\ vget r i <> 0) -> 0 < dotR r z).
Proof.
  intros A C L RD E t u r Lt Lu Lr. pose proof (rW A C RD) as W. pose proof (rM A C RD) as M.
  pose proof (safe_ic_decomposition ROps total_R C W) as S0. toR. rewrite E in S0. cbn in S0.
  pose proof (same_pattern_wf C L W S0) as WL. destruct S0 as [_ [_ [ML _]]]. toR. assert (LM : m L = cm A) by congruence.
  assert (DL : forall i, (i < m L)%nat -> vget (diag L) i <> 0) by (intros i Hi; apply (ic_diag_nz C L W E); congruence).
  assert (G : forall r : list R, length r = cm A -> exists t' z : list R, ic_apply ROps L t u r = Ok (t', z) /\ ic_f L r = Ok z /\ length z = cm A).
  { intros s Ls. rewrite <- LM in Lt, Lu, Ls.
    destruct (mult_lower_ok L t s WL Lt Ls) as [t1 [E1 [M1 _]]]. destruct (mult_upper_ok L u t1 WL Lu M1) as [z [E2 [M2 _]]].
    exists t1, z. unfold ic_f, ic_apply. toR. rewrite (lower_buffer L (zeros ROps (m L)) t s) by (auto; apply zeros_len). rewrite E1. cbn [bind].
    rewrite (upper_buffer L (zeros ROps (m L)) u t1) by (auto; apply zeros_len). rewrite E2. cbn [bind snd]. rewrite <- LM. auto. }
  destruct (G r Lr) as [t' [z [E1 [E2 Lz]]]]. exists t', z. split; auto. split; auto. split.
  - intros r' t'' z' Lr' E'. destruct (G r' Lr') as [t1 [z1 [E3 [E4 _]]]]. rewrite E' in E3; inversion E3; subst.
    rewrite (dotR_dotn r z1 (m L)), (dotR_dotn r' z (m L)) by congruence. apply (ic_f_sym L WL); congruence.
  - intros [i [Hi NZ]]. rewrite (dotR_dotn r z (m L)) by congruence. apply (ic_f_pos L WL DL); auto; [congruence|]. apply dotn_pos. exists i. rewrite LM. auto.
Qed.
