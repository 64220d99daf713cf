(** From stored systems to the positions of the converted matrix; the theorems of Props_Chol.v. *)
From Coq Require Import String.
From Coq Require Import List Arith ZArith NArith Bool Lia Reals Lra.
From Verif Require Import Base AlgebraModel AlgebraSpec Coo_proofs Csr_proofs SumR Mult_proofs Vec_proofs Pcg_theory SolversModel Safe_proofs Solver_proofs Ssor_proofs Precond_proofs
  SolversSpec Algebra_bridge Solvers_bridge CholSpec Chol_dense Chol_proofs.
Import ListNotations.
Local Open Scope R_scope.
Ltac toR := change (T ROps) with R in *.

Lemma touched_has : forall (A : coo R) (C : rcsr), ready 0 A C -> forall i j, (i < j)%nat -> (j < cm A)%nat -> (touched A i j <-> has C i j).
Proof.
  intros A C RD i j L Hj. pose proof (rW A C RD) as W. pose proof (rM A C RD) as M. destruct RD as [VA [F [D E]]].
  pose proof (valid_in_range A VA (fits_cm A F)) as RG. pose proof (fits_cm A F) as U. destruct F as [F1 F2]. destruct VA as [ND VA].
  destruct (csr_build_ok 0 A F1 F2 RG ND D) as [C' [E' [_ [_ [_ [_ [_ RE]]]]]]]. rewrite E in E'. inversion E'; subst C'. clear E'.
  assert (Ui : is_u32 i) by (apply (is_u32_le i (cm A)); auto; lia). assert (Uj : is_u32 j) by (apply (is_u32_le j (cm A)); auto; lia).
  assert (PM : forall x, In x (sort_keys (elems A)) <-> In x (elems A)).
  { intros x. pose proof (sort_keys_perm (elems A)) as P. split; intros I; [eapply Permutation.Permutation_in; [|exact I]|eapply Permutation.Permutation_in; [apply Permutation.Permutation_sym|exact I]]; auto. }
  split.
  - intros T. unfold touched in T. apply in_map_iff in T. destruct T as [[k v] [Ek I]]. cbn in Ek. subst k.
    apply (entry_pos C i j v); auto; [lia|]. rewrite RE by lia. apply in_map_iff. exists (key i j, v). cbn [fst snd]. split; [rewrite kcol_key by auto; auto|].
    apply filter_In. split; [|unfold rowis; cbn [fst]; rewrite krow_key by auto; apply Nat.eqb_refl].
    apply filter_In. split; [apply PM; auto|]. unfold offd; cbn [fst]. rewrite krow_key, kcol_key by auto. destruct (Nat.eqb_spec i j); [lia|auto].
  - intros [k K]. apply (pos_entry C i k j W) in K; [|lia]. rewrite RE in K by lia. apply in_map_iff in K. destruct K as [[q v] [Eq I]]. cbn [fst snd] in Eq.
    apply filter_In in I. destruct I as [I Rq]. apply filter_In in I. destruct I as [I _]. apply PM in I. unfold rowis in Rq; cbn [fst] in Rq. apply Nat.eqb_eq in Rq.
    inversion Eq; subst. unfold touched. apply in_map_iff. exists (q, vget (val C) k). cbn [fst]. split; auto.
    unfold in_range in RG. rewrite Forall_forall in RG. destruct (RG _ I) as [G _]. destruct (good_key_parts _ G) as [_ [_ [_ Kx]]]. cbn [fst] in Kx. auto.
Qed.

Lemma quad_ext : forall n s s' x, (forall i j, (i < n)%nat -> (j < n)%nat -> s i j = s' i j) -> quad n s x = quad n s' x.
Proof. intros n s s' x H. unfold quad. apply sumn_ext. intros i Hi. apply sumn_ext. intros j Hj. rewrite H; auto. Qed.

Section On.
Variables (A : coo R) (C : rcsr).
Hypothesis RD : ready 0 A C.
Hypothesis SD : spd A.
Hypothesis CP : closed_pattern A.
Notation n := (cm A).
Lemma closed_has : forall i j c, (i < j < c)%nat -> (c < m C)%nat -> has C i j -> has C i c -> has C j c.
Proof.
  intros i j c H Hc H1 H2. pose proof (rM A C RD) as M. apply (touched_has A C RD); try lia.
  apply (CP i j c); try lia; apply (touched_has A C RD); auto; lia.
Qed.
Lemma factor_A : exists F : rcsr, ic_factor ROps C = Ok F /\ same_pattern C F /\ (forall k, (k < n)%nat -> 0 < ent F k k) /\ cholesky A (triu F).
Proof.
  pose proof (rM A C RD) as M. destruct (factor_ok C (rW A C RD)) as [F [E [SP [POS EQ]]]].
  - intros x _ X. rewrite M in *. rewrite (quad_ext n (ent C) (value 0 A)) by apply (rE A C RD). apply SD. auto.
  - apply closed_has.
  - rewrite M in *. exists F. split; auto. split; auto. split; auto. split; [|split].
    + intros i j Hi L. unfold triu. destruct (Nat.leb_spec i j); [lia|auto].
    + intros i Hi. unfold triu. rewrite Nat.leb_refl. auto.
    + intros i j Hi Hj. rewrite EQ by auto. apply (rE A C RD); auto.
Qed.
Lemma chol_exists : exists U, cholesky A U.
Proof. destruct factor_A as [F [_ [_ [_ H]]]]. exists (triu F). auto. Qed.
Lemma chol_same : forall U W, cholesky A U -> cholesky A W -> forall i j, (i < n)%nat -> (j < n)%nat -> U i j = W i j.
Proof. intros U W [U1 [U2 U3]] [W1 [W2 W3]]. apply chol_unique; auto. intros i j Hi Hj. rewrite U3, W3 by auto. auto. Qed.

(** the routine ends, and what it leaves, in terms of the Cholesky factor *)
Lemma decomposed : forall U, cholesky A U -> exists L : rcsr, ic_decomposition ROps C = Ok L /\ wf_csr L /\ m L = n /\ same_pattern C L /\ second_stage (has C) n U (ent L).
Proof.
  intros U CU. pose proof (rM A C RD) as M. destruct factor_A as [F [E [SP [POS CF]]]].
  pose proof (same_pattern_wf C F (rW A C RD) SP) as WF. assert (MF : m F = n) by (rewrite <- M; apply SP).
  destruct (inverse_ok F WF) as [L [EL [SL [S1 S2]]]]; [rewrite MF; intros k Hk; specialize (POS k Hk); lra|].
  assert (UF : forall i j, (i <= j)%nat -> (j < n)%nat -> ent F i j = U i j).
  { intros i j Hij Hj. rewrite (chol_same U (triu F) CU CF) by lia. unfold triu. destruct (Nat.leb_spec i j); [auto|lia]. }
  exists L. split; [unfold ic_decomposition; toR; rewrite E; cbn [bind]; exact EL|]. split; [apply (same_pattern_wf F L WF SL)|].
  split; [rewrite <- MF; apply SL|]. split; [eapply sp_trans; eauto|]. rewrite MF in *. split.
  - intros i Hi. rewrite S1, UF by lia. auto.
  - intros i j H HS. rewrite S2 by (auto; apply (sp_has F C); auto using sp_sym). rewrite !UF by lia.
    rewrite (below_ext n (ent F) U (ent L) (ent L) i j) by (auto; intros; apply UF; lia). auto.
Qed.

(** applying the result *)
Lemma apply_form : forall (L : rcsr), wf_csr L -> m L = n -> forall t u r : list R, length t = n -> length u = n -> length r = n ->
  exists t' z, ic_apply ROps L t u r = Ok (t', z) /\ length z = n /\
  forall i, (i < n)%nat -> vget z i = sumn n (fun k => triu L i k * sumn n (fun l => triu L l k * vget r l)).
Proof.
  intros L WL ML t u r Lt Lu Lr. rewrite <- ML in Lt, Lu, Lr.
  destruct (mult_lower_ok L t r WL Lt Lr) as [t1 [E1 [M1 V1]]]. destruct (mult_upper_ok L u t1 WL Lu M1) as [z [E2 [M2 V2]]].
  exists t1, z. unfold ic_apply. toR. rewrite E1. cbn [bind]. rewrite E2. cbn [bind]. split; auto. rewrite ML in *. split; auto.
  intros i Hi. rewrite V2 by auto. apply sumn_ext. intros k Hk. unfold triu. destruct (Nat.leb i k); [|ring]. f_equal. rewrite V1 by auto.
  apply sumn_ext. intros l Hl. destruct (Nat.leb l k); [rewrite (ent_sym L l k)|]; ring.
Qed.
End On.

Definition unit_list (n j : nat) : list R := map (fun i => delta j i) (seq 0 n).
Lemma unit_get : forall n j i, (i < n)%nat -> vget (unit_list n j) i = delta j i.
Proof.
  intros n j i Hi. unfold vget, unit_list. rewrite (nth_indep _ 0 (delta j 0)) by (rewrite map_length, seq_length; auto).
  rewrite map_nth. rewrite seq_nth by auto. auto.
Qed.
Lemma stored_closed : forall V (A : coo V), all_stored A -> closed_pattern A.
Proof. intros V A H i j k L Hk _ _. apply H; lia. Qed.
Lemma tri_closed : forall V (A : coo V), tridiagonal A -> closed_pattern A.
Proof. intros V A H i j k L Hk T1 T2. pose proof (H i j ltac:(lia) T1). pose proof (H i k ltac:(lia) T2). lia. Qed.

Theorem completes : forall (A : coo R) (C : csr R), ready 0 A C -> spd A -> closed_pattern A ->
  exists L : csr R, ic_decomposition ROps C = Ok L /\ forall U, cholesky A U -> forall i, (i < cm A)%nat -> vget (diag L) i = / U i i.
Proof.
  intros A C RD SD CP. destruct (chol_exists A C RD SD CP) as [U0 CU0]. destruct (decomposed A C RD SD CP U0 CU0) as [L [E [_ [_ [_ [S1 _]]]]]].
  exists L. split; [exact E|]. intros U CU i Hi. rewrite <- ent_diag, S1 by auto. f_equal. apply (chol_same A U0 U); auto.
Qed.
Theorem chol_of_stored : forall (A : coo R) (C : csr R), ready 0 A C -> spd A -> closed_pattern A ->
  exists U V, cholesky A U /\ inverses (cm A) U V /\ (forall U', cholesky A U' -> forall i j, (i < cm A)%nat -> (j < cm A)%nat -> U' i j = U i j).
Proof.
  intros A C RD SD CP. destruct (chol_exists A C RD SD CP) as [U CU]. pose proof CU as [U1 [U2 U3]].
  destruct (inverse_exists (cm A) U U1) as [V HV]; [intros i Hi; specialize (U2 i Hi); lra|]. exists U, V. split; auto. split; auto.
  intros U' CU' i j Hi Hj. apply (chol_same A U' U); auto.
Qed.
Theorem exact_iff : forall (A : coo R) (C : csr R) U V, ready 0 A C -> spd A -> all_stored A -> cholesky A U -> inverses (cm A) U V ->
  exists L : csr R, ic_decomposition ROps C = Ok L /\
  ((forall t u r : list R, length t = cm A -> length u = cm A -> length r = cm A -> exists t' z, ic_apply ROps L t u r = Ok (t', z) /\ is_solution A r z)
   <-> no_new_zero (cm A) U V).
Proof.
  intros A C U V RD SD AS CU IV. pose proof (stored_closed R A AS) as CP. set (n := cm A) in *.
  destruct (decomposed A C RD SD CP U CU) as [L [E [WL [ML [_ ST]]]]]. fold n in ML, ST.
  pose proof CU as [U1 [U2 U3]]. fold n in U1, U2, U3. assert (NZ : forall i, (i < n)%nat -> U i i <> 0) by (intros i Hi; specialize (U2 i Hi); lra).
  assert (ST' : second_stage (fun _ _ => True) n U (ent L)) by (eapply stage_weaken; [|exact ST]; intros i j H _; apply (touched_has A C RD); [lia|unfold n in H; lia|apply AS; unfold n in H; lia]).
  pose proof (stage_iff n U (ent L) V U1 NZ IV ST') as SI. destruct (inverse_upper n U V U1 NZ IV) as [UV DV].
  exists L. split; [exact E|]. rewrite <- SI. split.
  - intros SOL.
    assert (UL : upper n (triu L)) by (intros i j Hi Q; unfold triu; destruct (Nat.leb_spec i j); [lia|auto]).
    assert (PL : forall i, (i < n)%nat -> 0 < triu L i i).
    { intros i Hi. unfold triu. rewrite Nat.leb_refl. destruct ST' as [S1 _]. rewrite S1 by auto. apply Rinv_0_lt_compat. auto. }
    assert (PV : forall i, (i < n)%nat -> 0 < V i i) by (intros i Hi; rewrite DV by auto; apply Rinv_0_lt_compat; auto).
    assert (EQ : forall i j, (i < n)%nat -> (j < n)%nat -> triu L i j = V i j).
    { apply rchol_unique; auto. intros i j Hi Hj.
      destruct (SOL (zeros ROps n) (zeros ROps n) (unit_list n j)) as [t' [z [EA ZS]]];
        [apply (len_zeros ROps)|apply (len_zeros ROps)|unfold unit_list; rewrite map_length, seq_length; auto|].
      destruct (apply_form A L WL ML (zeros ROps n) (zeros ROps n) (unit_list n j)) as [t2 [z2 [EA2 [_ Z2]]]];
        [apply (len_zeros ROps)|apply (len_zeros ROps)|unfold unit_list; rewrite map_length, seq_length; auto|].
      rewrite EA in EA2. inversion EA2; subst t2 z2. clear EA2. fold n in Z2.
      set (y := fun i => sumn n (fun k => V i k * sumn n (fun l => V l k * vget (unit_list n j) l))).
      assert (DZ : forall i, (i < n)%nat -> vget z i - y i = 0).
      { assert (K1 : forall a, (a < n)%nat -> sumn n (fun b => value 0 A a b * (vget z b - y b)) = 0).
        { intros a Ha. rewrite (sumn_ext n _ (fun b => value 0 A a b * vget z b - value 0 A a b * y b)) by (intros; ring). rewrite sumn_minus.
          specialize (ZS a Ha). unfold row in ZS. fold n in ZS. rewrite ZS. unfold y.
          rewrite (uv_solves n (value 0 A) U V (vget (unit_list n j)) U3 IV a Ha). ring. }
        apply (upper_kernel n U); auto. apply (lower_kernel n U); auto. intros a Ha. rewrite <- (K1 a Ha).
        rewrite (sumn_ext n (fun b => value 0 A a b * _) (fun b => sumn n (fun k => U k a * (U k b * (vget z b - y b))))).
        - rewrite sumn_exchange. apply sumn_ext. intros k Hk. rewrite sumn_scal. auto.
        - intros b Hb. rewrite <- (U3 a b Ha Hb). rewrite <- sumn_scal_r. apply sumn_ext. intros; ring. }
      specialize (DZ i Hi). rewrite Z2 in DZ by auto. unfold y in DZ.
      assert (SM : forall w : mat, sumn n (fun k => w i k * sumn n (fun l => w l k * vget (unit_list n j) l)) = sumn n (fun k => w i k * w j k)).
      { intros w. apply sumn_ext. intros k Hk. f_equal. rewrite (sumn_ext n _ (fun l => delta j l * w l k)) by (intros; rewrite unit_get by auto; ring). apply (sumn_delta_l n j (fun l => w l k)); auto. }
      rewrite (SM (triu L)), (SM V) in DZ. lra. }
    intros i j Lij Hj. rewrite <- (EQ i j) by lia. unfold triu. destruct (Nat.leb_spec i j); [auto|lia].
  - intros EQ t u r Lt Lu Lr. destruct (apply_form A L WL ML t u r Lt Lu Lr) as [t' [z [EA [_ Z]]]]. exists t', z. split; [exact EA|].
    intros i Hi. unfold row. fold n in Hi, Z |- *. rewrite <- (uv_solves n (value 0 A) U V (vget r) U3 IV i Hi).
    assert (TV : forall i k, (i < n)%nat -> (k < n)%nat -> triu L i k = V i k).
    { intros a k Ha Hk. unfold triu. destruct (Nat.leb_spec a k); [apply EQ; auto|rewrite UV by lia; auto]. }
    apply sumn_ext. intros j Hj. f_equal. rewrite Z by auto. apply sumn_ext. intros k Hk. rewrite TV by auto. f_equal.
    apply sumn_ext. intros l Hl. rewrite TV by auto. auto.
Qed.
Theorem exact_usable : forall (A : coo R) (C : csr R) U V, ready 0 A C -> spd A -> all_stored A -> cholesky A U -> inverses (cm A) U V -> no_new_zero (cm A) U V ->
  usable CholeskyCG A C.
Proof.
  intros A C U V RD SD AS CU IV NN. destruct (exact_iff A C U V RD SD AS CU IV) as [L [E IFF]]. pose proof (proj2 IFF NN) as NN2.
  exists L. split; [exact E|]. intros t u r z t' Lt Lu Lr EA. destruct (NN2 t u r Lt Lu Lr) as [t2 [z2 [EA2 SOL]]]. rewrite EA in EA2. inversion EA2; subst t2 z2.
  assert (Q : quad (cm A) (value 0 A) (vget z) = dotR r z).
  { rewrite (dotR_dotn r z (cm A)) by auto. unfold quad, dotn. apply sumn_ext. intros i Hi. rewrite <- (SOL i Hi). unfold row.
    rewrite (sumn_ext _ _ (fun j => vget z i * (value 0 A i j * vget z j))) by (intros; ring). rewrite sumn_scal. ring. }
  rewrite Q. assert (P : 0 <= dotR r z); [|pose proof (pow_R1_Rle 2 52 ltac:(lra)); nra].
  rewrite <- Q. destruct (all_zero_dec (cm A) (vget z)) as [X|X]; [apply Rlt_le, SD; auto|].
  unfold quad. rewrite sumn_0; [lra|]. intros i Hi. apply sumn_0. intros j Hj. rewrite (X i Hi). ring.
Qed.

(** an exact preconditioner solves in one step *)
Theorem one_step : forall (A : coo R) (C : csr R) U V, ready 0 A C -> spd A -> all_stored A -> cholesky A U -> inverses (cm A) U V -> no_new_zero (cm A) U V ->
  forall (b x : list R) (e : R) (k : nat), length b = cm A -> length x = cm A -> e <> 0 -> (1 <= k)%nat ->
  exists x', run ROps CholeskyCG C b x e k = Ok (x', Some O) /\ (residual_norm A b x < Rabs e -> x' = x) /\ (Rabs e <= residual_norm A b x -> is_solution A b x').
Proof.
  intros A C U V RD SD AS CU IV NN b x e k Lb Lx He Hk. destruct (exact_iff A C U V RD SD AS CU IV) as [L [E IFF]]. pose proof (proj2 IFF NN) as NN2.
  pose proof (rM A C RD) as M. rewrite (ic_run A C b x RD Lb Lx e k). toR. rewrite E. cbn [bind].
  change (r0 C b x) with (vadd b (-1) (amul C x)). set (r := vadd b (-1) (amul C x)). assert (Lr : length r = cm A) by (unfold r; rewrite vadd_length; auto).
  assert (ML : m L = cm A).
  { pose proof (safe_ic_decomposition ROps total_R C (rW A C RD)) as S0. toR. rewrite E in S0. cbn in S0. destruct S0 as [_ [_ [ML _]]]. congruence. }
  assert (LZ : length (zeros ROps (m L)) = cm A) by (unfold zeros; rewrite repeat_length; auto).
  destruct (NN2 _ _ r LZ LZ Lr) as [t [z [EA SOL]]]. unfold ic_f at 1. toR. rewrite EA. cbn [bind snd].
  assert (RSQ : dotR r r = resid_sq C b x) by (apply res_sq; [congruence|apply res_initial; congruence]).
  pose proof (resid_sq_nonneg C b x) as NN0. pose proof (sqrt_lt_abs (resid_sq C b x) e NN0) as SL. rewrite (resid_eq A C RD). rewrite RSQ.
  destruct (Rltb (resid_sq C b x) (e * e)) eqn:B.
  - apply Rltb_true in B. exists x. split; auto. split; auto. intros Q. apply SL in B. lra.
  - apply Rltb_false in B. destruct k as [|k]; [lia|]. cbn [gl].
    assert (AZ : forall c, (c < m C)%nat -> vget (amul C z) c = vget r c).
    { intros c Hc. unfold amul. rewrite vget_mk by auto. rewrite <- (row_am A C RD) by lia. apply SOL. lia. }
    assert (P1 : dotR z (amul C z) = dotR r z).
    { rewrite (dotR_dotn r z (cm A)) by auto. rewrite dotn_sym.
      assert (Lz : length z = cm A).
      { destruct (mult_lower_ok L (zeros ROps (m L)) r) as [t1 [E1 [M1 _]]]; try congruence.
        - apply (same_pattern_wf C L (rW A C RD)). pose proof (safe_ic_decomposition ROps total_R C (rW A C RD)) as S0. toR. rewrite E in S0. exact S0.
        - destruct (mult_upper_ok L (zeros ROps (m L)) t1) as [z1 [E2 [M2 _]]]; try congruence.
          + apply (same_pattern_wf C L (rW A C RD)). pose proof (safe_ic_decomposition ROps total_R C (rW A C RD)) as S0. toR. rewrite E in S0. exact S0.
          + unfold ic_apply in EA. toR. rewrite E1 in EA. cbn [bind] in EA. rewrite E2 in EA. cbn [bind] in EA. inversion EA; subst. congruence. }
      rewrite (dotR_dotn z (amul C z) (cm A)) by auto. apply dotn_ext; auto. intros; apply AZ; lia. }
    assert (P2 : 0 < dotR r z).
    { rewrite (dotR_dotn r z (cm A)) by auto.
      assert (Q : quad (cm A) (value 0 A) (vget z) = dotn (cm A) (vget r) (vget z)).
      { unfold quad, dotn. apply sumn_ext. intros i Hi. rewrite <- (SOL i Hi). unfold row.
        rewrite (sumn_ext _ _ (fun j => vget z i * (value 0 A i j * vget z j))) by (intros; ring). rewrite sumn_scal. ring. }
      rewrite <- Q. apply SD. destruct (all_zero_dec (cm A) (vget z)) as [X|X]; auto. exfalso.
      assert (Z : dotR r r = 0).
      { rewrite (dotR_dotn r r (cm A)) by auto. apply dotn_0l. intros i Hi. rewrite <- (SOL i Hi). unfold row. apply sumn_0. intros j Hj. rewrite (X j Hj). ring. }
      rewrite RSQ in Z. pose proof (Rsqr_pos_lt e He) as Q2. unfold Rsqr in Q2. lra. }
    rewrite P1. rewrite Rdivr_ok by lra. cbn [bind]. cbv zeta. replace (dotR r z / dotR r z) with 1 by (field; lra).
    assert (CL : clampR 1 = 1).
    { unfold clampR. destruct (Rltb (Rabs 1) (/ 2 ^ 52)) eqn:B1; auto. apply Rltb_true in B1. rewrite Rabs_R1 in B1. lra. }
    rewrite CL.
    assert (Z : forall c, (c < m C)%nat -> vget (vadd r (Ropp 1) (amul C z)) c = 0) by (intros c Hc; unfold vadd; rewrite vget_mk by lia; rewrite AZ by auto; ring).
    assert (D0 : dotR (vadd r (Ropp 1) (amul C z)) (vadd r (Ropp 1) (amul C z)) = 0).
    { rewrite (dotR_dotn _ _ (m C)) by (rewrite vadd_length; lia). apply dotn_0l; auto. }
    rewrite D0. destruct (Rltb 0 (e * e)) eqn:B2; [|apply Rltb_false in B2; pose proof (Rsqr_pos_lt e He) as Q; unfold Rsqr in Q; lra].
    exists (vadd x 1 z). split; auto. split; [intros Q; apply SL in Q; lra|]. intros _ i Hi.
    assert (RS : is_res C b (vadd x 1 z) (vadd r (Ropp 1) (amul C z))) by (apply res_step; [congruence|congruence|apply res_initial; congruence]).
    rewrite (row_am A C RD) by auto. specialize (RS i ltac:(lia)). rewrite Z in RS by lia. unfold resid in RS. lra.
Qed.
