(** Proofs about the magnetostatic solution, over the reals. *)
From Coq Require Import String.
From Coq Require Import List Arith ZArith NArith Bool Lia Reals Lra.
From Verif Require Import Base SumR AlgebraModel AlgebraSpec Csr_proofs Vec_proofs NonLinear_proofs Algebra_bridge SolversModel SolversSpec Solver_proofs Solvers_bridge GeometryModel GeometrySpec Geometry_proofs
  DrawingModel DrawingSpec MeshModel MeshSpec Adjacency_proofs Fem_proofs Energy_proofs MeshGeo_proofs Pin_proofs Wellposed_proofs MaterialModel MaterialSpec Material_proofs Wiring_proofs SimModel SimSpec.
Import ListNotations.
Local Open Scope R_scope.

Lemma map_res_nth : forall (X Y : Type) (f : X -> res Y) (l : list X) (ys : list Y), Forall2 (fun x y => f x = Ok y) l ys -> map_res f l = Ok ys.
Proof. intros X Y f l ys F. induction F as [|x y l ys H F IH]; cbn [map_res]; [reflexivity|]. rewrite H. cbn [bind]. rewrite IH. reflexivity. Qed.
Lemma map_res_seq : forall (X Y : Type) (f : nat -> res Y) (g : X -> Y -> Prop) (l : list X) (ys : list Y) k, Forall2 g l ys ->
  (forall i x y, nth_error l i = Some x -> g x y -> f (k + i)%nat = Ok y) -> map_res f (seq k (length l)) = Ok ys.
Proof.
  intros X Y f g l ys k F. revert k. induction F as [|x y l ys H F IH]; intros k K; cbn [length seq map_res]; [reflexivity|].
  pose proof (K 0%nat x y eq_refl H) as K0. rewrite Nat.add_0_r in K0. rewrite K0. cbn [bind]. rewrite (IH (Datatypes.S k)); [reflexivity|].
  intros i x' y' N G. replace (Datatypes.S k + i)%nat with (k + Datatypes.S i)%nat by lia. apply (K (Datatypes.S i) x' y'); auto.
Qed.
(** the first failure decides *)
Lemma map_res_first : forall (X Y : Type) (f : X -> res Y) (l : list X) (Pb : X -> Prop), (forall x, In x l -> is_ub (f x) /\ Pb x \/ is_ok (f x)) ->
  (is_ub (map_res f l) /\ exists x, In x l /\ Pb x) \/ exists ys, map_res f l = Ok ys.
Proof.
  intros X Y f l Pb. induction l as [|x l IH]; intros H; [right; eexists; reflexivity|]. cbn [map_res].
  destruct (H x (or_introl eq_refl)) as [[[s E] P]|[y E]]; rewrite E; cbn [bind].
  - left. split; [eexists; reflexivity|]. exists x. split; [left; auto|auto].
  - destruct IH as [[[s E'] [z [I P]]]|[ys E']]; [intros z I; apply H; right; auto| |]; rewrite E'; cbn [bind].
    + left. split; [eexists; reflexivity|]. exists z. split; [right; auto|auto].
    + right. eexists; reflexivity.
Qed.

Section Sim.
Variable vac : R.
Hypothesis Hvac : 0 <= vac.
Variable m : mesh ROps (mprop ROps).
Variable ps : list (mprop ROps).
Variable S : nsystem ROps.
Hypothesis MP : ms_problem m ps S.
Hypothesis FT : fits (sA _ S).
Notation n := (length (m_points m)).
Notation nt := (length (m_tris m)).

Lemma attrs_len : length (m_attrs m) = nt /\ length ps = nt.
Proof.
  destruct MP as [[WS [PR _]] _]. destruct WS as [W0 [W1 _]]. pose proof (F2_length _ _ _ _ _ PR). split; [|]; try congruence.
Qed.
Lemma problem_facts : (0 < n)%nat /\ valid_system S /\ length (sb _ S) = n /\ all_diag_touched (sA _ S) /\
  forall mu, length mu = nt -> positive mu -> sys_ok S mu /\ spd (coo_eval (sA _ S) mu).
Proof.
  destruct MP as [RD [U [es [S0 [a [b [c [E [ED [F [ND [La [Lb [Lc HP]]]]]]]]]]]]]]. split; [lia|].
  assert (K : forall mu, length mu = nt -> positive mu -> valid_system S /\ length (sb _ S) = n /\ sys_ok S mu /\ all_diag_touched (sA _ S) /\ spd (coo_eval (sA _ S) mu)).
  { intros mu L P. destruct (ms_pinned _ m ps p_J p_M es S0 a b c RD U E F ND La Lb Lc HP mu L P) as [S' [E' R]]. rewrite ED in E'. injection E' as <-. exact R. }
  destruct (K (repeat 1 nt)) as [V [LB [_ [D _]]]]; [apply repeat_length| |].
  - intros i Hi. rewrite repeat_length in Hi. unfold vget. rewrite nth_indep with (d' := 1) by (rewrite repeat_length; auto). rewrite nth_repeat. lra.
  - do 3 (split; [assumption|]). intros mu L P. destruct (K mu L P) as [_ [_ [H1 [_ H2]]]]. auto.
Qed.
Lemma props_filled : fill_props ROps m = Ok ps.
Proof.
  destruct MP as [[WS [PR _]] _]. destruct attrs_len as [LA _]. unfold fill_props. rewrite <- LA.
  apply (map_res_seq _ _ _ _ _ _ 0 PR). intros i a p N H. cbn [plus].
  assert (Li : (i < length (m_attrs m))%nat) by (apply nth_error_Some; congruence).
  assert (G : get (m_attrs m) i = Ok a) by (unfold get; rewrite N; reflexivity). rewrite G. cbn [bind].
  pose proof (region_ptr ROps (mprop ROps) (m_drawing m) a) as K. rewrite H in K. exact K.
Qed.
Lemma rhs_ok : forall mu, sys_ok S mu -> eval_b ROps (sb _ S) mu = Ok (sb R (sys_eval S mu)).
Proof.
  intros mu [_ H]. unfold eval_b, sys_eval. cbn [sb]. induction (sb _ S) as [|e l IH]; cbn [map_res map]; [reflexivity|].
  rewrite ne_eval_ok by (apply H; left; auto). cbn [bind]. rewrite IH by (intros; apply H; right; auto). reflexivity.
Qed.
Lemma cm_eval : forall mu, cm (sA R (sys_eval S mu)) = n.
Proof. intros mu. destruct problem_facts as [_ [[V [C _]] [L _]]]. cbn. rewrite C. exact L. Qed.
Lemma fits_eval : forall mu, fits (sA R (sys_eval S mu)).
Proof. intros mu. destruct FT as [F1 F2]. split; cbn; [exact F1|]. rewrite map_length. exact F2. Qed.
Lemma diag_eval : forall mu, all_diag_touched (sA R (sys_eval S mu)).
Proof. intros mu. destruct problem_facts as [_ [_ [_ [D _]]]]. intros i Hi. cbn in Hi. unfold touched. cbn. rewrite map_map. cbn. apply D. exact Hi. Qed.
Lemma rhs_len : forall mu, length (sb R (sys_eval S mu)) = n.
Proof. intros mu. destruct problem_facts as [_ [_ [L _]]]. cbn. rewrite map_length. exact L. Qed.
Lemma matrix_ok : forall mu M, length mu = nt -> positive mu -> ncsr_reach (sA _ S) M -> exists M' C,
  ncsr_evaluate ROps (sA _ S) M mu = Ok M' /\ ncsr_csr ROps M' = C /\ ready 0 (sA R (sys_eval S mu)) C /\ ncsr_reach (sA _ S) M'.
Proof.
  intros mu M L P RC. destruct problem_facts as [_ [V [_ [D K]]]]. destruct (K mu L P) as [[OK _] _].
  destruct (ncsr_evaluate_v (sA _ S) mu (proj1 V) FT D OK) as [C [EC [_ H]]]. destruct (H M RC) as [M' [E1 E2]].
  exists M', C. split; auto. split; auto. split; [|eapply reach_eval; eauto]. split; [exact (proj1 (eval_valid S mu V))|]. split; [apply fits_eval|]. split; [apply diag_eval|exact EC].
Qed.
Lemma inner_ok : forall mu C x (e : R) k, length mu = nt -> positive mu -> ready 0 (sA R (sys_eval S mu)) C -> length x = n -> e <> 0 ->
  exists x' st, run ROps (SsorCG (3 / 2)) C (sb R (sys_eval S mu)) x e k = Ok (x', st) /\ length x' = n /\ (st <> None -> field_residual S mu x' < Rabs e) /\ ((n <= k)%nat -> st <> None).
Proof.
  intros mu C x e k L P RD Lx NE. destruct problem_facts as [Hn [V [_ [D K]]]]. destruct (K mu L P) as [_ SP].
  assert (US : usable (SsorCG (3 / 2)) (sA R (sys_eval S mu)) C) by (split; [lra|]; rewrite cm_eval; lia).
  assert (LB : length (sb R (sys_eval S mu)) = cm (sA R (sys_eval S mu))) by (rewrite rhs_len, cm_eval; auto).
  assert (LX : length x = cm (sA R (sys_eval S mu))) by (rewrite cm_eval; auto).
  destruct (all_finish _ C _ x RD LB LX SP (SsorCG (3 / 2)) e k US NE) as [x' [st [E F]]]; [discriminate|]. exists x', st. split; auto.
  destruct (stops_residual _ C _ x RD LB LX _ _ _ _ _ E) as [L' H]. rewrite cm_eval in L'. split; auto. split.
  - intros NS. destruct st; [exact H|congruence].
  - intros LE N. specialize (F ltac:(discriminate) N). rewrite cm_eval in F. lia.
Qed.
(** lines 150-156: the residual of a pass *)
Lemma residual_ok : forall mu C r x, length mu = nt -> ready 0 (sA R (sys_eval S mu)) C -> length r = n -> length x = n ->
  exists y z, mult_sym ROps r C x = Ok y /\ zip2 ROps Rminus (sb R (sys_eval S mu)) y = Ok z /\ length z = n /\ AlgebraModel.norm ROps z = Ok (field_residual S mu x).
Proof.
  intros mu C r x L RD Lr Lx. destruct RD as [W [F [D E]]].
  destruct (sym_product (sA R (sys_eval S mu)) r x W F D) as [C' [y [E' [EY [LY VY]]]]]; [rewrite cm_eval; auto|rewrite cm_eval; auto|].
  rewrite E in E'. injection E' as <-. rewrite cm_eval in LY. destruct (zip2_ok Rminus (sb R (sys_eval S mu)) y) as [z [EZ [LZ VZ]]]; [rewrite rhs_len, LY; auto|].
  exists y, z. split; auto. split; auto. rewrite rhs_len in LZ, VZ. split; auto. rewrite norm_ok. unfold field_residual, residual_norm, dotR. rewrite cm_eval, LZ. do 2 f_equal.
  apply sumn_ext. intros i Hi. rewrite VZ by auto. unfold row. rewrite cm_eval in *. rewrite VY by auto. reflexivity.
Qed.
Lemma rest_ok : Forall proper_material ps -> (is_ub (initial_mu ROps ps) /\ exists p, In p ps /\ off_the_end p 0) \/
  exists mu0, initial_mu ROps ps = Ok mu0 /\ at_rest ps mu0 /\ length mu0 = nt /\ positive mu0.
Proof.
  intros PM. rewrite Forall_forall in PM. destruct (map_res_first _ _ (fun p => getMu ROps p 0) ps (fun p => off_the_end p 0)) as [H|[mu0 E]].
  - intros p I. destruct (proper_getMu p 0 (PM p I)) as [H|[g [H _]]]; [left; auto|right; eexists; eauto].
  - left. exact H.
  - right. exists mu0. pose proof (map_res_F2 _ _ _ _ _ E) as F. split; [exact E|]. split; [exact F|]. pose proof (F2_length _ _ _ _ _ F) as L. destruct attrs_len as [_ L2]. split; [exact (eq_trans (eq_sym L) L2)|].
    intros i Hi. assert (Hp : (i < length ps)%nat) by (rewrite L; exact Hi). pose proof (F2_nth_both _ _ _ _ _ F i no_material 0 Hp) as G. cbv beta in G.
    destruct (proper_getMu _ 0 (PM _ (nth_In ps no_material Hp))) as [[[s U] _]|[g [G' [P _]]]]; [rewrite U in G; discriminate|]. rewrite G' in G. injection G as G. unfold vget. rewrite <- G. exact P.
Qed.
Lemma lin_rest : Forall (fun p : mprop ROps => p_bh p = [] /\ 0 < p_mu p) ps -> initial_mu ROps ps = Ok (map p_mu ps) /\ forallb (isLinear ROps) ps = true /\ positive (map p_mu ps).
Proof.
  intros PM. split; [|split].
  - apply map_res_nth. clear - PM. induction PM as [|p l [E _] PM IH]; cbn [map]; constructor; [apply linear_getMu; auto|exact IH].
  - apply forallb_forall. rewrite Forall_forall in PM. intros p I. apply linear_iff. apply PM; auto.
  - intros i Hi. rewrite map_length in Hi. unfold vget. rewrite nth_indep with (d' := p_mu no_material) by (rewrite map_length; auto). rewrite (map_nth p_mu). rewrite Forall_forall in PM. apply PM, nth_In; auto.
Qed.
(** start: matrix and right-hand side for the permeabilities mu *)
Lemma start_ok : forall mu, length mu = nt -> positive mu -> exists M0 M C, ncsr_build ROps (sA _ S) = Ok M0 /\ ncsr_evaluate ROps (sA _ S) M0 mu = Ok M /\
  eval_b ROps (sb _ S) mu = Ok (sb R (sys_eval S mu)) /\ ncsr_csr ROps M = C /\ ready 0 (sA R (sys_eval S mu)) C /\ ncsr_reach (sA _ S) M.
Proof.
  intros mu L P. destruct problem_facts as [_ [V [_ [D K]]]]. destruct (K mu L P) as [OK _].
  destruct (ncsr_evaluate_v (sA _ S) mu (proj1 V) FT D (proj1 OK)) as [_ [_ [[M0 E0] _]]].
  destruct (matrix_ok mu M0 L P (reach_build _ _ E0)) as [M [C [E1 [E2 [E3 E4]]]]]. exists M0, M, C. repeat (split; auto). apply rhs_ok; auto.
Qed.
Lemma linear_run : Forall (fun p : mprop ROps => p_bh p = [] /\ 0 < p_mu p) ps -> (N.of_nat n <= 100000)%N ->
  exists x i, ms_solve ROps exp vac m S = Ok (x, map p_mu ps, Some i) /\ length x = n /\ field_residual S (map p_mu ps) x < 1 / 10 ^ 6.
Proof.
  intros PM LE. destruct (lin_rest PM) as [E0 [EL P]]. assert (L : length (map p_mu ps) = nt) by (rewrite map_length; apply attrs_len).
  destruct (start_ok _ L P) as [M0 [M [C [E1 [E2 [E3 [E4 [RD _]]]]]]]].
  unfold ms_solve. rewrite props_filled. cbn [bind]. rewrite E1. cbn [bind]. rewrite E0. cbn [bind]. rewrite E2. cbn [bind]. rewrite E3. cbn [bind].
  cbn [div ofZ one ROps]. change (T ROps) with R in *. rewrite Rdivr_ok by lra. cbn [bind]. rewrite EL. rewrite Rdivr_ok by (apply IZR_neq; discriminate). cbn [bind].
  assert (LZ : length (zeros ROps n) = n) by (unfold zeros; apply repeat_length).
  assert (TE : 1 / IZR (10 ^ 6) = 1 / 10 ^ 6) by (f_equal; rewrite pow_IZR; reflexivity).
  assert (TP : 0 < 1 / 10 ^ 6) by (apply Rdiv_lt_0_compat; [lra|apply pow_lt; lra]).
  destruct (inner_ok (map p_mu ps) C (zeros ROps n) (1 / 10 ^ 6) (N.to_nat 100000) L P RD LZ) as [x' [st [E [Lx [H1 H2]]]]]; [lra|].
  rewrite E4. unfold run in E. cbn [T ROps] in E. change (T ROps) with R in *. rewrite TE, E. cbn [bind].
  assert (NS : st <> None) by (apply H2; lia). destruct st as [i|]; [|congruence]. exists x', i. split; auto. split; auto. rewrite Rabs_right in H1; [|lra]. apply H1. discriminate.
Qed.

(** ** non-linear materials *)
Definition ptol : R := 1 / 10 ^ 7.
Definition good (mu0 : list R) (q : pass ROps) : Prop := length (q_x q) = n /\ updates vac ps mu0 (q_mu q) /\ length (q_mu q) = nt /\ positive (q_mu q) /\
  ready 0 (sA R (sys_eval S (q_mu q))) (ncsr_csr ROps (q_F q)) /\ ncsr_reach (sA _ S) (q_F q) /\ q_b q = sb R (sys_eval S (q_mu q)) /\ length (q_r q) = n.
Lemma one_pass_ok : forall mu0 i q, Forall proper_material ps -> at_rest ps mu0 -> good mu0 q ->
  (is_ub (one_pass ROps exp vac m S ps (3 / 2) ptol i q) /\ exists x, intermediate vac ps S x /\ off_a_curve m ps x) \/
  exists q' Bs, one_pass ROps exp vac m S ps (3 / 2) ptol i q = Ok q' /\ good mu0 q' /\ q_res q' = field_residual S (q_mu q') (q_x q') /\
    intermediate vac ps S (q_x q') /\ computeCurl ROps (mprop ROps) m (q_x q') = Ok Bs /\ updateMu ROps exp vac Bs ps (q_mu q) (q_res q) i = Ok (q_mu q').
Proof.
  intros mu0 i q PM AR [Lx [UP [Lm [P [RD [RC [EB Lr]]]]]]].
  assert (TP : 0 < ptol) by (unfold ptol; apply Rdiv_lt_0_compat; [lra|apply pow_lt; lra]).
  destruct (inner_ok (q_mu q) (ncsr_csr ROps (q_F q)) (q_x q) ptol 50 Lm P RD Lx) as [x' [st [E [L' _]]]]; [lra|].
  assert (IM : intermediate vac ps S x'). { exists mu0, (q_mu q), (ncsr_csr ROps (q_F q)), (q_x q), st. repeat (split; auto). apply RD. }
  unfold one_pass. rewrite EB. unfold run in E. cbn [T ROps] in E. change (T ROps) with R in *. rewrite E. cbn [bind].
  destruct MP as [[WS [PRP [_ PRO]]] _]. destruct WS as [W0 [W1 W2]]. destruct (computeCurl_ok m x' W0 PRO L') as [gs [EG EC]].
  rewrite EC. cbn [bind]. set (Bs := map quarter gs) in *.
  assert (LB : length Bs = nt). { unfold Bs. rewrite map_length. unfold computeGrad in EG. pose proof (map_res_F2 _ _ _ _ _ EG) as F. rewrite <- (F2_length _ _ _ _ _ F). reflexivity. }
  destruct attrs_len as [_ LP]. assert (LQ : (length Bs <= length ps)%nat) by lia. assert (LM : length (q_mu q) = length Bs) by (rewrite LB; exact Lm).
  destruct (updateMu_defined vac Bs ps (q_mu q) (q_res q) i LM LQ PM) as [UB OK]. change (T ROps) with R in *. destruct OK as [U|[mu' EM]].
  - left. destruct (proj1 UB U) as [j [Hj OE]]. destruct U as [s U]. rewrite U. split; [eexists; reflexivity|]. exists x'. split; auto. exists Bs, j. split; auto. split; auto. lia.
  - right. pose proof (updateMu_positive vac Bs ps (q_mu q) (q_res q) i mu' Hvac LM LQ PM P EM) as P'. destruct (updateMu_values vac Bs ps (q_mu q) (q_res q) i mu' LM LQ EM) as [Lm' _].
    rewrite EM. cbn [bind]. assert (Ln : length mu' = nt) by congruence.
    destruct (matrix_ok mu' (q_F q) Ln P' RC) as [M' [C [E1 [E2 [RD' RC']]]]]. rewrite E1. cbn [bind].
    destruct problem_facts as [_ [_ [_ [_ K]]]]. destruct (K mu' Ln P') as [OK' _]. rewrite (rhs_ok mu' OK'). cbn [bind].
    destruct (residual_ok mu' C (q_r q) x' Ln RD' Lr L') as [y [z [EY [EZ [LZ EN]]]]]. rewrite E2, EY. cbn [bind]. cbn [sub ROps]. change (T ROps) with R in *. rewrite EZ. cbn [bind]. rewrite EN. cbn [bind].
    eexists. exists Bs. split; [reflexivity|]. unfold good. cbn [q_x q_mu q_F q_b q_r q_res].
    split; [|auto]. split; auto. split; [eapply updates_more; eauto|]. split; auto. split; auto. split; [rewrite E2; auto|]. auto.
Qed.
(** the share of the first, artificial residual 10^10 that is left after i passes *)
Definition lefto (i : nat) : R := vac * 10 ^ 20 * exp (- (INR i * (INR i - 1)) / 10).
Definition big (i : nat) (mu : list R) : Prop := forall e, (e < nt)%nat -> p_bh (nth e ps no_material) <> [] -> lefto i <= vget mu e.
Definition entering (i : nat) (q : pass ROps) : Prop := (i = 0%nat /\ q_res q = 10 ^ 10) \/ (i <> 0%nat /\ big i (q_mu q)).
Lemma lefto_step : forall i, lefto (Datatypes.S i) = weight i * lefto i.
Proof.
  intros i. unfold lefto, weight. replace (exp (- INR i / 5) * (vac * 10 ^ 20 * exp (- (INR i * (INR i - 1)) / 10))) with (vac * 10 ^ 20 * (exp (- INR i / 5) * exp (- (INR i * (INR i - 1)) / 10))) by ring.
  rewrite <- exp_plus. do 2 f_equal. rewrite S_INR. field.
Qed.
Lemma big_step : forall i (q : pass ROps) Bs mu', Forall proper_material ps -> length (q_mu q) = nt -> positive (q_mu q) -> length Bs = nt -> entering i q ->
  updateMu ROps exp vac Bs ps (q_mu q) (q_res q) i = Ok mu' -> big (Datatypes.S i) mu'.
Proof.
  intros i q Bs mu' PM Lm P LB EN EM e He NL. destruct attrs_len as [_ LP]. rewrite Forall_forall in PM.
  assert (LM : length (q_mu q) = length Bs) by (rewrite LB; exact Lm). assert (LQ : (length Bs <= length ps)%nat) by lia.
  destruct (updateMu_values vac Bs ps (q_mu q) (q_res q) i mu' LM LQ EM) as [_ H]. assert (He' : (e < length (q_mu q))%nat) by (rewrite Lm; exact He).
  destruct (H e He') as [_ H2]. destruct (H2 NL) as [g [G ->]]. clear H H2.
  assert (Hp : (e < length ps)%nat) by lia. destruct (proper_getMu _ (dist (nth e Bs org) org) (PM _ (nth_In ps no_material Hp))) as [[[s U] _]|[g' [G' [Pg _]]]]; [rewrite U in G; discriminate|].
  rewrite G in G'. injection G' as <-. destruct (weight_range i) as [W0 W1]. rewrite lefto_step. specialize (P e He').
  assert (0 <= (1 - weight i) * g) by (apply Rmult_le_pos; lra).
  assert (lefto i <= vget (q_mu q) e + vac * (q_res q * q_res q)).
  { destruct EN as [[-> ->]|[_ B]].
    - unfold lefto. cbn [INR]. replace (- (0 * (0 - 1)) / 10) with 0 by field. rewrite exp_0. replace (10 ^ 10 * 10 ^ 10) with (10 ^ 20) by (rewrite <- pow_add; reflexivity). lra.
    - specialize (B e He NL). assert (0 <= vac * (q_res q * q_res q)) by (apply Rmult_le_pos; auto; apply Rle_0_sqr). lra. }
  assert (weight i * lefto i <= weight i * (vget (q_mu q) e + vac * (q_res q * q_res q))) by (apply Rmult_le_compat_l; lra). lra.
Qed.
Lemma passes_ok : forall mu0, Forall proper_material ps -> at_rest ps mu0 -> forall k i q, good mu0 q -> entering i q ->
  (is_ub (passes ROps exp vac m S ps (3 / 2) ptol k i q) /\ exists x, intermediate vac ps S x /\ off_a_curve m ps x) \/
  exists q' st, passes ROps exp vac m S ps (3 / 2) ptol k i q = Ok (q', st) /\ good mu0 q' /\
    match st with
    | Some j => (i <= j < i + k)%nat /\ field_residual S (q_mu q') (q_x q') < ptol /\ big (Datatypes.S j) (q_mu q')
    | None => (k <> 0)%nat -> ptol <= field_residual S (q_mu q') (q_x q') /\ big (i + k) (q_mu q')
    end.
Proof.
  intros mu0 PM AR k. induction k as [|k IH]; intros i q G EN; cbn [passes].
  - right. exists q, None. split; auto. split; auto. intros X. congruence.
  - destruct (one_pass_ok mu0 i q PM AR G) as [[[s U] X]|[q' [Bs [E [G' [RS [_ [EC EM]]]]]]]].
    + left. rewrite U. split; [eexists; reflexivity|exact X].
    + rewrite E. cbn [bind].
      assert (LB : length Bs = nt). { destruct G' as [Lx _]. destruct MP as [[WS [PRP [_ PRO]]] _]. destruct WS as [W0 _]. destruct (computeCurl_ok m (q_x q') W0 PRO Lx) as [gs [EG EC']]. rewrite EC in EC'. injection EC' as ->.
        rewrite map_length. unfold computeGrad in EG. pose proof (map_res_F2 _ _ _ _ _ EG) as F. rewrite <- (F2_length _ _ _ _ _ F). reflexivity. }
      assert (B' : big (Datatypes.S i) (q_mu q')). { destruct G as [_ [_ [Lm [P _]]]]. eapply big_step; eauto. }
      cbn [ltb ROps]. destruct (Rltb (q_res q') ptol) eqn:C.
      * right. exists q', (Some i). apply Rltb_true in C. rewrite RS in C. split; [reflexivity|]. split; auto. split; [lia|]. auto.
      * apply Rltb_false in C. rewrite RS in C. destruct (IH (Datatypes.S i) q' G') as [X|[q2 [st [E2 [G2 H2]]]]]; [right; split; [discriminate|exact B']|left; exact X|].
        right. exists q2, st. split; auto. split; auto. destruct st as [j|].
        -- destruct H2 as [H2 H3]. split; [lia|auto].
        -- intros _. destruct k as [|k']; [cbn [passes] in E2; injection E2 as <-; rewrite Nat.add_1_r; split; [lra|auto]|].
           replace (i + Datatypes.S (Datatypes.S k'))%nat with (Datatypes.S i + Datatypes.S k')%nat by lia. apply H2. discriminate.
Qed.
Lemma nonlinear_run : Forall proper_material ps -> Exists (fun p : mprop ROps => p_bh p <> []) ps ->
  (is_ub (ms_solve ROps exp vac m S) /\ ((exists p, In p ps /\ off_the_end p 0) \/ exists x, intermediate vac ps S x /\ off_a_curve m ps x)) \/
  exists x mu st mu0, ms_solve ROps exp vac m S = Ok (x, mu, st) /\ length x = n /\ length mu = nt /\ positive mu /\ at_rest ps mu0 /\ updates vac ps mu0 mu /\
    match st with
    | Some j => (j < 500)%nat /\ field_residual S mu x < 1 / 10 ^ 7 /\ big (Datatypes.S j) mu
    | None => 1 / 10 ^ 7 <= field_residual S mu x /\ big 500 mu
    end.
Proof.
  intros PM NL. unfold ms_solve. rewrite props_filled. cbn [bind]. destruct problem_facts as [_ [V [LS [D _]]]].
  assert (E0 : exists M0, ncsr_build ROps (sA _ S) = Ok M0).
  { destruct (start_ok (repeat 1 nt)) as [M0 [_ [_ [E0 _]]]]; [apply repeat_length| |eauto]. intros i Hi. rewrite repeat_length in Hi. unfold vget. rewrite nth_indep with (d' := 1) by (rewrite repeat_length; auto). rewrite nth_repeat. lra. }
  destruct E0 as [M0 E0]. rewrite E0. cbn [bind].
  destruct (rest_ok PM) as [[[s U] X]|[mu0 [E1 [AR [L P]]]]]; [left; rewrite U; split; [eexists; reflexivity|left; exact X]|]. rewrite E1. cbn [bind].
  destruct (start_ok mu0 L P) as [M0' [M [C [E0' [E2 [E3 [E4 [RD RC]]]]]]]]. rewrite E0 in E0'. injection E0' as <-. rewrite E2. cbn [bind]. rewrite E3. cbn [bind].
  cbn [div ofZ one ROps]. change (T ROps) with R in *. rewrite Rdivr_ok by lra. cbn [bind].
  assert (FL : forallb (isLinear ROps) ps = false). { apply not_true_is_false. intros H. rewrite forallb_forall in H. apply Exists_exists in NL. destruct NL as [p [I N]]. apply N, linear_iff, H, I. }
  rewrite FL. rewrite Rdivr_ok by (apply IZR_neq; discriminate). cbn [bind].
  assert (TE : 1 / IZR (10 ^ 7) = ptol) by (unfold ptol; f_equal; rewrite pow_IZR; reflexivity). rewrite TE.
  set (q0 := mkPass _ _ _ _ _ _).
  assert (G : good mu0 q0). { unfold good, q0. cbn [q_x q_mu q_F q_b q_r q_res]. split; [unfold zeros; apply repeat_length|]. split; [constructor|]. split; auto. split; auto. split; [rewrite E4; auto|]. split; auto. split; auto. unfold zeros. rewrite repeat_length. exact LS. }
  assert (EN : entering 0 q0). { left. split; auto. unfold q0. cbn [q_res]. rewrite pow_IZR. reflexivity. }
  destruct (passes_ok mu0 PM AR 500 0 q0 G EN) as [[[s U] X]|[q' [st [E [G' H]]]]].
  - left. rewrite U. split; [eexists; reflexivity|right; exact X].
  - right. rewrite E. cbn [bind]. exists (q_x q'), (q_mu q'), st, mu0. destruct G' as [G1 [G2 [G3 [G4 _]]]]. repeat (split; [solve [auto]|]). destruct st as [j|]; [split; [lia|apply H]|apply H; discriminate].
Qed.
Lemma lefto_S : forall j, lefto (Datatypes.S j) = left_over vac j.
Proof. intros j. unfold lefto, left_over. do 2 f_equal. rewrite S_INR. field. Qed.
Lemma linear_curves : Forall (fun p : mprop ROps => p_bh p = [] /\ 0 < p_mu p) ps -> forall x, length x = n -> curves_give m ps x (map p_mu ps).
Proof.
  intros PM x Lx. destruct MP as [[WS [_ [_ PRO]]] _]. destruct WS as [W0 _]. destruct (computeCurl_ok m x W0 PRO Lx) as [gs [_ EC]].
  exists (map quarter gs). split; auto. split; [apply map_length|]. intros i Hi. rewrite Forall_forall in PM. destruct (PM _ (nth_In ps no_material Hi)) as [E _].
  rewrite (linear_getMu _ _ E). f_equal. unfold vget. rewrite nth_indep with (d' := p_mu no_material) by (rewrite map_length; auto). rewrite (map_nth p_mu). reflexivity.
Qed.
End Sim.
