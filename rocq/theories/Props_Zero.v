(** Property C99.  Vocabulary in ZeroSpec.v. *)
From Coq Require Import String.
From Coq Require Import List Arith ZArith NArith Bool Lia Reals Lra.
From Verif Require Import Base SumR AlgebraModel AlgebraSpec Csr_proofs Algebra_bridge SolversModel SolversSpec Solver_proofs Solvers_bridge GeometryModel GeometrySpec Geometry_proofs
  DrawingModel DrawingSpec MeshModel MeshSpec Fem_proofs MeshGeo_proofs Energy_proofs Pin_proofs MaterialModel MaterialSpec Material_proofs LayersModel LayersSpec Layers_proofs Wiring_proofs Conductor_proofs
  CotSpec PhysSpec MagSpec Phys_proofs Mag_proofs StackSpec Stack_proofs SimModel SimSpec Sim_proofs ZeroSpec Zero_proofs Props_Mesh Props_Layers Props_Material Props_Sim Props_Phys Props_Mag Props_Stack.
Import ListNotations.
Local Open Scope R_scope.

(** ** C99: sources and answer *)
(** all voltages zero: zero exactly, at every node *)
Lemma zero_calls : forall l : list (pt * R), (forall q, In q l -> snd q = 0) -> times 0 l = l.
Proof.
  intros l H. unfold times. rewrite <- (map_id l) at 2. apply map_ext_in. intros [p v] I. specialize (H _ I). cbn [fst snd] in *. subst v. f_equal. ring.
Qed.
Lemma zero_stack_calls : forall l : list (pt * R * nat), (forall q, In q l -> snd (fst q) = 0) -> stack_times 0 l = l.
Proof.
  intros l H. unfold stack_times. rewrite <- (map_id l) at 2. apply map_ext_in. intros [[p v] k] I. specialize (H _ I). cbn [fst snd] in *. subst v. do 2 f_equal. ring.
Qed.
(** the size below which sources are not seen *)
Lemma weak_enough : forall n b (tol : Z), (0 < tol)%Z -> exists c0, 0 < c0 /\ forall c, Rabs c < c0 -> size n (map (Rmult c) b) < 1 / IZR tol.
Proof.
  intros n b tol Ht. assert (IT : 0 < IZR tol) by (apply IZR_lt; auto). assert (PT : 0 < 1 / IZR tol) by (apply Rdiv_lt_0_compat; lra).
  assert (P0 : 0 <= size n b) by (apply sqrt_pos). exists (1 / IZR tol / (size n b + 1)). split; [apply Rdiv_lt_0_compat; lra|].
  intros c Hc. rewrite size_scaled. apply Rle_lt_trans with (Rabs c * (size n b + 1)); [apply Rmult_le_compat_l; [apply Rabs_pos|lra]|].
  apply Rmult_lt_reg_r with (/ (size n b + 1)); [apply Rinv_0_lt_compat; lra|]. rewrite Rmult_assoc, Rinv_r by lra. rewrite Rmult_1_r. exact Hc.
Qed.
Lemma weak_conductor : forall A (m : mesh ROps A) ps (sigma : A -> R) l ids, fem_ready m ps -> all_used m -> (forall p, In p ps -> 0 < sigma p) -> 0 < m_depth m -> m_points m <> [] ->
  (N.of_nat (length (m_points m)) <= 92681)%N -> Forall2 (fun c id => closest (m_points m) (fst c) id) l ids -> pins m ids ->
  exists c0, 0 < c0 /\ forall c, Rabs c < c0 -> answer sigma m (times c l) = Ok (all_zero (length (m_points m))).
Proof.
  intros A m ps sigma l ids RD U Hs Hd NE LE F HP. destruct (conductor_ready A m ps sigma l ids RD U Hs Hd NE F HP) as [S [S' [E [V [L [D [SP [_ [K _]]]]]]]]].
  destruct (weak_enough (sdim S') (sb R S') (10 ^ 12) eq_refl) as [c0 [P0 H]]. exists c0. split; auto. intros c Hc. unfold answer. rewrite E. cbn [bind]. rewrite K. cbn [bind]. unfold cd_solve. rewrite <- L.
  assert (LT : sdim (sys_times c S') = sdim S') by (unfold sdim, sys_times; cbn [sb]; apply map_length). rewrite <- LT. apply solve_weak; auto; try reflexivity.
  - destruct V as [V1 [V2 V3]]. fold (sdim S') in V2, V3. split; [exact V1|]. split; [exact (eq_trans V2 (eq_sym LT))|exact (eq_ind_r is_u32 V3 LT)].
  - apply fits_small; [apply V|]. destruct V as [_ [V2 _]]. cbn [sys_times sA]. fold (sdim S') in V2. rewrite V2, L. exact LE.
  - rewrite LT, L. destruct (m_points m); [congruence|discriminate].
  - rewrite LT. apply H; auto.
Qed.
Theorem C99_no_voltage : forall A (m : mesh ROps A) ps (sigma : A -> R) l ids, fem_ready m ps -> all_used m -> (forall p, In p ps -> 0 < sigma p) -> 0 < m_depth m -> m_points m <> [] ->
  (N.of_nat (length (m_points m)) <= 92681)%N -> Forall2 (fun c id => closest (m_points m) (fst c) id) l ids -> pins m ids -> (forall q, In q l -> snd q = 0) ->
  answer sigma m l = Ok (all_zero (length (m_points m))).
Proof.
  intros A m ps sigma l ids RD U Hs Hd NE LE F HP Hz. destruct (weak_conductor A m ps sigma l ids RD U Hs Hd NE LE F HP) as [c0 [P0 H]]. rewrite <- (zero_calls l Hz). apply H. rewrite Rabs_R0. exact P0.
Qed.
Print Assumptions C99_no_voltage.
Lemma weak_stack : forall A (ms : list (mesh ROps A)) pss (sigma : A -> R) links es l us, ready_layers ms pss -> laid ms links es ->
  Forall (fun k : link ROps => 0 < k_R k) links -> (forall ps p, In ps pss -> In p ps -> 0 < sigma p) -> Forall (fun m : mesh ROps A => 0 < m_depth m) ms -> nodes ms <> 0%nat ->
  (N.of_nat (nodes ms) <= 92681)%N -> Forall2 (fun c u => addresses ms (fst (fst c)) (snd c) u) l us -> grounded ms es us ->
  exists c0, 0 < c0 /\ forall c, Rabs c < c0 -> stack_answer sigma ms links (stack_times c l) = Ok (all_zero (nodes ms)).
Proof.
  intros A ms pss sigma links es l us RD [W [Ac Ds]] HR Hs Hd NZ LE F HP. destruct (layers_ready A ms pss sigma links es l us RD W Ac Ds HR Hs Hd F HP) as [S [S' [E [V [L [D [SP [_ [K _]]]]]]]]].
  destruct (weak_enough (sdim S') (sb R S') (10 ^ 7) eq_refl) as [c0 [P0 H]]. exists c0. split; auto. intros c Hc. unfold stack_answer. rewrite E. cbn [bind]. rewrite K. cbn [bind]. unfold ml_solve.
  assert (LT : sdim (sys_times c S') = sdim S') by (unfold sdim, sys_times; cbn [sb]; apply map_length). change (length (sb _ (sys_times c S'))) with (sdim (sys_times c S')). rewrite <- L, <- LT at 1. apply solve_weak; auto; try reflexivity.
  - destruct V as [V1 [V2 V3]]. fold (sdim S') in V2, V3. split; [exact V1|]. split; [exact (eq_trans V2 (eq_sym LT))|exact (eq_ind_r is_u32 V3 LT)].
  - apply fits_small; [apply V|]. destruct V as [_ [V2 _]]. cbn [sys_times sA]. fold (sdim S') in V2. rewrite V2, L. exact LE.
  - rewrite LT, L. exact NZ.
  - rewrite LT. apply H; auto.
Qed.
Theorem C99_no_voltage_layers : forall A (ms : list (mesh ROps A)) pss (sigma : A -> R) links es l us, ready_layers ms pss -> laid ms links es ->
  Forall (fun k : link ROps => 0 < k_R k) links -> (forall ps p, In ps pss -> In p ps -> 0 < sigma p) -> Forall (fun m : mesh ROps A => 0 < m_depth m) ms -> nodes ms <> 0%nat ->
  (N.of_nat (nodes ms) <= 92681)%N -> Forall2 (fun c u => addresses ms (fst (fst c)) (snd c) u) l us -> grounded ms es us -> (forall q, In q l -> snd (fst q) = 0) ->
  stack_answer sigma ms links l = Ok (all_zero (nodes ms)).
Proof.
  intros A ms pss sigma links es l us RD La HR Hs Hd NZ LE F HP Hz. destruct (weak_stack A ms pss sigma links es l us RD La HR Hs Hd NZ LE F HP) as [c0 [P0 H]]. rewrite <- (zero_stack_calls l Hz). apply H. rewrite Rabs_R0. exact P0.
Qed.
Print Assumptions C99_no_voltage_layers.
(** the answer does not scale with the voltages: below some size the voltages imposed are ignored altogether, and the nodes
    that setVoltage holds are returned as zero too *)
Theorem C99_weak : (forall A (m : mesh ROps A) ps (sigma : A -> R) l ids, fem_ready m ps -> all_used m -> (forall p, In p ps -> 0 < sigma p) -> 0 < m_depth m -> m_points m <> [] ->
    (N.of_nat (length (m_points m)) <= 92681)%N -> Forall2 (fun c id => closest (m_points m) (fst c) id) l ids -> pins m ids ->
    exists c0, 0 < c0 /\ forall c, Rabs c < c0 -> answer sigma m (times c l) = Ok (all_zero (length (m_points m)))) /\
  (forall A (ms : list (mesh ROps A)) pss (sigma : A -> R) links es l us, ready_layers ms pss -> laid ms links es ->
    Forall (fun k : link ROps => 0 < k_R k) links -> (forall ps p, In ps pss -> In p ps -> 0 < sigma p) -> Forall (fun m : mesh ROps A => 0 < m_depth m) ms -> nodes ms <> 0%nat ->
    (N.of_nat (nodes ms) <= 92681)%N -> Forall2 (fun c u => addresses ms (fst (fst c)) (snd c) u) l us -> grounded ms es us ->
    exists c0, 0 < c0 /\ forall c, Rabs c < c0 -> stack_answer sigma ms links (stack_times c l) = Ok (all_zero (nodes ms))).
Proof. split; [exact weak_conductor|exact weak_stack]. Qed.
Print Assumptions C99_weak.

(** every voltage that setVoltage imposes is returned to within the tolerance: 1e-12 V for one conductor, 1e-7 V for joined layers *)
Theorem C99_imposed : forall A (m : mesh ROps A) ps (sigma : A -> R) l ids, fem_ready m ps -> all_used m -> (forall p, In p ps -> 0 < sigma p) -> 0 < m_depth m -> m_points m <> [] ->
  (N.of_nat (length (m_points m)) <= 92681)%N -> Forall2 (fun c id => closest (m_points m) (fst c) id) l ids -> pins m ids ->
  exists x, answer sigma m l = Ok x /\ forall i v, last_value (combine ids (map snd l)) i = Some v -> Rabs (vget x i - v) < 1 / IZR (10 ^ 12).
Proof.
  intros A m ps sigma l ids RD U Hs Hd NE LE F HP. destruct (conductor_ready A m ps sigma l ids RD U Hs Hd NE F HP) as [S [S' [E [V [L [D [SP [EV [_ K]]]]]]]]].
  pose proof V as [V1 [V2 V3]]. fold (sdim S') in V2, V3.
  destruct (solve_ok S' (10 ^ 12) V D) as [x [EX RX]]; auto; try reflexivity.
  - apply fits_small; auto. rewrite V2, L. exact LE.
  - rewrite L. destruct (m_points m); [congruence|discriminate].
  - rewrite L. lia.
  - exists x. unfold answer. rewrite E. cbn [bind]. rewrite EV. cbn [bind]. unfold cd_solve. rewrite <- L. split; [exact EX|]. intros i v H. destruct (K i v H) as [Hi Pi]. eapply pinned_near; eauto. rewrite L. exact Hi.
Qed.
Print Assumptions C99_imposed.
Theorem C99_imposed_layers : forall A (ms : list (mesh ROps A)) pss (sigma : A -> R) links es l us, ready_layers ms pss -> laid ms links es ->
  Forall (fun k : link ROps => 0 < k_R k) links -> (forall ps p, In ps pss -> In p ps -> 0 < sigma p) -> Forall (fun m : mesh ROps A => 0 < m_depth m) ms -> nodes ms <> 0%nat ->
  (N.of_nat (nodes ms) <= 92681)%N -> Forall2 (fun c u => addresses ms (fst (fst c)) (snd c) u) l us -> grounded ms es us ->
  exists x, stack_answer sigma ms links l = Ok x /\ forall i v, last_value (combine us (map (fun c => snd (fst c)) l)) i = Some v -> Rabs (vget x i - v) < 1 / IZR (10 ^ 7).
Proof.
  intros A ms pss sigma links es l us RD [W [Ac Ds]] HR Hs Hd NZ LE F HP. destruct (layers_ready A ms pss sigma links es l us RD W Ac Ds HR Hs Hd F HP) as [S [S' [E [V [L [D [SP [EV [_ K]]]]]]]]].
  pose proof V as [V1 [V2 V3]]. fold (sdim S') in V2, V3.
  destruct (solve_ok S' (10 ^ 7) V D) as [x [EX RX]]; auto; try reflexivity.
  - apply fits_small; auto. rewrite V2, L. exact LE.
  - rewrite L. exact NZ.
  - rewrite L. lia.
  - exists x. unfold stack_answer. rewrite E. cbn [bind]. rewrite EV. cbn [bind]. unfold ml_solve. change (length (sb _ S')) with (sdim S'). split; [exact EX|]. intros i v H. destruct (K i v H) as [Hi Pi]. eapply pinned_near; eauto. rewrite L. exact Hi.
Qed.
Print Assumptions C99_imposed_layers.
(** so the answer does not scale: the square with 0 V and 1 V at opposite corners, and the same with both voltages multiplied by c > 0 *)
Lemma sqm_closest : Forall2 (fun (c : pt * R) id => closest (m_points sqm) (fst c) id) [(P 0 0, 0); (P 2 2, 1)] [0; 2]%nat.
Proof. apply sqm_held. Qed.
Theorem C99_refuted : exists (m : mesh ROps R) ps l ids c x, fem_ready m ps /\ all_used m /\ (forall p, In p ps -> 0 < p) /\ Forall2 (fun q id => closest (m_points m) (fst q) id) l ids /\ pins m ids /\
  0 < c /\ answer (fun s => s) m l = Ok x /\ 1 / 2 < vget x 2 /\ answer (fun s => s) m (times c l) = Ok (all_zero (length (m_points m))).
Proof.
  assert (RD : fem_ready sqm [3; 5]) by apply sqm_ready. assert (U : all_used sqm) by apply sqm_ready. assert (Hs : forall p, In p [3; 5] -> 0 < p) by (intros p [<-|[<-|[]]]; lra). assert (Hd : 0 < m_depth sqm) by (cbn; lra). assert (NE : m_points sqm <> []) by discriminate.
  assert (LE : (N.of_nat (length (m_points sqm)) <= 92681)%N) by (cbn; lia).
  destruct (C99_imposed R sqm [3; 5] (fun s => s) _ _ RD U Hs Hd NE LE sqm_closest sqm_pins) as [x [EX HX]].
  destruct (weak_conductor R sqm [3; 5] (fun s => s) _ _ RD U Hs Hd NE LE sqm_closest sqm_pins) as [c0 [P0 H]].
  exists sqm, [3; 5], [(P 0 0, 0); (P 2 2, 1)], [0; 2]%nat, (c0 / 2), x. split; auto. split; auto. split; auto. split; [apply sqm_closest|]. split; [apply sqm_pins|]. split; [lra|]. split; auto.
  split; [|apply H; rewrite Rabs_right; lra]. specialize (HX 2%nat 1 eq_refl). apply Rabs_def2 in HX. assert (1 / IZR (10 ^ 12) < 1 / 2) by (apply Rmult_lt_compat_l; [lra|]; apply Rinv_lt_contravar; [|apply IZR_lt; reflexivity]; apply Rmult_lt_0_compat; [lra|apply IZR_lt; reflexivity]). lra.
Qed.
Print Assumptions C99_refuted.

(** *** magnetostatics: no current, no magnet *)
Section Silent.
Variable vac : R.
Hypothesis Hvac : 0 <= vac.
Variables (m : mesh ROps (mprop ROps)) (ps : list (mprop ROps)) (es : list (nat * nat)) (a b c : nat) (S0 S : nsystem ROps).
Hypothesis lo : laid_out m ps es a b c.
Hypothesis hp : pins m [a; b; c].
Hypothesis nm : no_magnets (@p_M ROps) m.
Hypothesis nj : forall p, In p ps -> p_J p = 0.
Hypothesis e0 : ms_getFemSystem ROps (mprop ROps) p_J p_M m es = Ok S0.
Hypothesis e1 : addDirichletInfinite ROps (mprop ROps) m S0 = Ok S.
Lemma silent_problem : ms_problem m ps S.
Proof.
  destruct lo as [Rd [Us [Dr [Ol [Np Ri]]]]]. destruct Ri as [Fa [ND [La [Lb Lc]]]]. split; auto. split; auto. exists es, S0, a, b, c. auto 10.
Qed.
Lemma positive_permeable : forall mu, length mu = length (m_tris m) -> positive mu -> permeable m mu.
Proof. intros mu L P. split; auto. intros u I. apply In_nth with (d := 0) in I. destruct I as [i [Hi <-]]. apply P; auto. Qed.
Lemma silent_residual : forall mu, length mu = length (m_tris m) -> positive mu -> field_residual S mu (all_zero (length (m_points m))) = 0.
Proof.
  intros mu L P. pose proof (permeable_permeabilities _ m mu (positive_permeable mu L P)) as PM.
  assert (Z : potential (@p_J ROps) (@p_M ROps) m es mu (fun _ => 0)).
  { apply (proj2 (currents_iff m ps es a b c (@p_M ROps) lo nm (@p_J ROps) mu (fun _ => 0) PM)). do 3 (split; [reflexivity|]). intros i _ _ _ _. unfold act. rewrite sumn_0 by (intros; ring). unfold surf. symmetry. apply suml_0.
    intros e He. rewrite (nj (snd (snd e))) by (eapply elements_prop; eauto; apply lo). unfold on_corner. destruct (Nat.ltb 0 _); field. }
  destruct Z as [T0 [T' [Q0 [Q1 Q2]]]]. rewrite e0 in Q0. injection Q0 as <-. rewrite e1 in Q1. injection Q1 as <-. unfold field_residual. rewrite residual_zeros. apply size_zero. intros i Hi.
  assert (V : valid_system S) by apply (problem_facts m ps S silent_problem). destruct V as [_ [VC _]]. assert (SD : cm (sA R (sys_eval S mu)) = sdim (sys_eval S mu)) by (unfold sdim, sys_eval; cbn [sb sA cm coo_eval]; rewrite map_length; exact VC).
  rewrite SD in Hi. specialize (Q2 i Hi). unfold row_eq in Q2. rewrite <- Q2. apply sumn_0. intros. ring.
Qed.
Lemma silent_inner : forall mu C (e : R) k, length mu = length (m_tris m) -> positive mu -> ready 0 (sA R (sys_eval S mu)) C -> 0 < e ->
  run ROps (SsorCG (3 / 2)) C (sb R (sys_eval S mu)) (all_zero (length (m_points m))) e k = Ok (all_zero (length (m_points m)), Some 0%nat).
Proof.
  intros mu C e k L P RD Pe. destruct (problem_facts m ps S silent_problem) as [Hn [V [LS [D K]]]]. destruct (K mu L P) as [_ SP].
  assert (CM : cm (sA R (sys_eval S mu)) = length (m_points m)) by (destruct V as [_ [VC _]]; cbn [sys_eval sA coo_eval cm]; congruence).
  apply (start_enough (sA R (sys_eval S mu))); auto.
  - cbn [sys_eval sb]. rewrite map_length, LS, CM. reflexivity.
  - unfold all_zero. rewrite repeat_length, CM. reflexivity.
  - split; [lra|]. rewrite CM. lia.
  - lra.
  - pose proof (silent_residual mu L P) as RZ. unfold field_residual in RZ. rewrite RZ. rewrite Rabs_right; lra.
Qed.
End Silent.

Lemma silent_field : forall (m : mesh ROps (mprop ROps)) zz, (exists ps, fem_ready m ps) -> zz = all_zero (length (m_points m)) ->
  exists Bs, computeCurl ROps (mprop ROps) m zz = Ok Bs /\ length Bs = length (m_tris m) /\ forall i, nth i Bs org = org.
Proof.
  intros m zz [ps [[W0 _] [_ [_ Hp]]]] ->. set (zz := all_zero _). assert (Lz : length zz = length (m_points m)) by apply repeat_length.
  destruct (computeGrad_ok m zz W0 Hp Lz) as [gs' [EG' FG]]. destruct (computeCurl_ok m zz W0 Hp Lz) as [gs [EG EC]]. rewrite EG in EG'. injection EG' as <-.
  exists (map quarter gs). split; auto. split; [rewrite map_length; symmetry; eapply F2_length; eauto|]. intros i. assert (Q : quarter org = org) by (apply pt_ext; cbn; ring). rewrite <- Q at 1. rewrite map_nth.
  assert (Z : nth i gs org = org); [|rewrite Z; exact Q]. clear EC EG. unfold proper in Hp. revert i. induction FG as [|t g l gs G FG IH]; intros [|i]; cbn [nth]; auto; [|apply IH; [inversion W0|inversion Hp]; auto].
  inversion Hp as [|? ? HT _]; subst. destruct G as [G1 G2]. unfold zz in *. rewrite !vget_zeros in G1, G2. unfold tri_turn, turn in HT.
  set (x1 := px (pos m (t1 t)) - px (pos m (t0 t))) in *. set (y1 := py (pos m (t1 t)) - py (pos m (t0 t))) in *. set (x2 := px (pos m (t2 t)) - px (pos m (t0 t))) in *. set (y2 := py (pos m (t2 t)) - py (pos m (t0 t))) in *.
  assert (A1 : px g * (x1 * y2 - x2 * y1) = 0) by (replace (px g * (x1 * y2 - x2 * y1)) with ((px g * x1 + py g * y1) * y2 - (px g * x2 + py g * y2) * y1) by ring; rewrite <- G1, <- G2; ring).
  assert (A2 : py g * (x1 * y2 - x2 * y1) = 0) by (replace (py g * (x1 * y2 - x2 * y1)) with ((px g * x2 + py g * y2) * x1 - (px g * x1 + py g * y1) * x2) by ring; rewrite <- G1, <- G2; ring).
  assert (HT' : x1 * y2 - x2 * y1 <> 0) by (intros E; apply HT; rewrite <- E; unfold x1, x2, y1, y2; ring).
  apply pt_ext; [apply Rmult_integral in A1; destruct A1; auto; contradiction|apply Rmult_integral in A2; destruct A2; auto; contradiction].
Qed.
Lemma passes_first : forall o fexp vac m S ps w e k i q, k <> 0%nat ->
  passes o fexp vac m S ps w e k i q = (q <- one_pass o fexp vac m S ps w e i q ;; if ltb o (q_res q) e then Ok (q, Some i) else passes o fexp vac m S ps w e (pred k) (Datatypes.S i) q).
Proof. intros o fexp vac m S ps w e [|k] i q H; [congruence|]. reflexivity. Qed.
Lemma dist_same : forall p, dist p p = 0.
Proof. intros p. unfold dist. rewrite !Rminus_diag_eq by reflexivity. rewrite Rmult_0_l, Rplus_0_r. apply sqrt_0. Qed.
Definition silent (m : mesh ROps (mprop ROps)) (ps : list (mprop ROps)) (es : list (nat * nat)) (S : nsystem ROps) : Prop :=
  (exists a b c S0, laid_out m ps es a b c /\ pins m [a; b; c] /\ ms_getFemSystem ROps (mprop ROps) p_J p_M m es = Ok S0 /\ addDirichletInfinite ROps (mprop ROps) m S0 = Ok S) /\
  no_magnets (@p_M ROps) m /\ (forall p, In p ps -> p_J p = 0).
(** linear materials: the potential is zero exactly, without an iteration *)
Theorem C99_no_source_linear : forall (vacuum : R) m ps es S, silent m ps es S -> fits (sA _ S) -> Forall (fun p : mprop ROps => p_bh p = [] /\ 0 < p_mu p) ps ->
  ms_solve ROps exp vacuum m S = Ok (all_zero (length (m_points m)), map p_mu ps, Some 0%nat).
Proof.
  intros vac m ps es S [[a [b [c [S0 [lo [hp [e0 e1]]]]]]] [nm nj]] FT PM.
  pose proof (silent_problem m ps es a b c S0 S lo hp e0 e1) as MP. destruct (lin_rest ps PM) as [E0 [EL P]]. assert (L : length (map p_mu ps) = length (m_tris m)) by (rewrite map_length; apply (attrs_len m ps S MP)).
  destruct (start_ok m ps S MP FT _ L P) as [M0 [M [C [E1 [E2 [E3 [E4 [RD _]]]]]]]].
  unfold ms_solve. rewrite (props_filled m ps S MP). cbn [bind]. rewrite E1. cbn [bind]. rewrite E0. cbn [bind]. rewrite E2. cbn [bind]. rewrite E3. cbn [bind].
  cbn [div ofZ one ROps]. change (T ROps) with R in *. rewrite Rdivr_ok by lra. cbn [bind]. rewrite EL. rewrite Rdivr_ok by (apply IZR_neq; discriminate). cbn [bind].
  assert (TP : 0 < 1 / IZR (10 ^ 6)) by (apply Rdiv_lt_0_compat; [lra|apply IZR_lt; reflexivity]).
  pose proof (silent_inner m ps es a b c S0 S lo hp nm nj e0 e1 (map p_mu ps) C (1 / IZR (10 ^ 6)) (N.to_nat 100000) L P RD TP) as E.
  rewrite E4. unfold run in E. cbn [T ROps] in E. change (zeros ROps (length (m_points m))) with (all_zero (length (m_points m))). change (T ROps) with R in *. rewrite E. reflexivity.
Qed.
Print Assumptions C99_no_source_linear.
(** materials with curves: the potential is zero, and reported as converged in the first pass, but every such material is
    left with a permeability of at least 1e20 times that of vacuum *)
Theorem C99_no_source_curves : forall (vacuum : R) m ps es S, 0 <= vacuum -> silent m ps es S -> fits (sA _ S) -> Forall proper_material ps -> Exists (fun p : mprop ROps => p_bh p <> []) ps ->
  (is_ub (ms_solve ROps exp vacuum m S) /\ exists p, In p ps /\ off_the_end p 0) \/
  exists mu, ms_solve ROps exp vacuum m S = Ok (all_zero (length (m_points m)), mu, Some 0%nat) /\ forall e, (e < length ps)%nat -> p_bh (nth e ps no_material) <> [] -> vacuum * 10 ^ 20 <= vget mu e.
Proof.
  intros vac m ps es S Hvac [[a [b [c [S0 [lo [hp [e0 e1]]]]]]] [nm nj]] FT PM NL.
  pose proof (silent_problem m ps es a b c S0 S lo hp e0 e1) as MP. destruct (problem_facts m ps S MP) as [Hn [V [LS [D K]]]]. destruct (attrs_len m ps S MP) as [_ LP].
  assert (FL : forallb (isLinear ROps) ps = false). { apply not_true_is_false. intros H. rewrite forallb_forall in H. apply Exists_exists in NL. destruct NL as [p [I N]]. apply N, linear_iff, H, I. }
  assert (OFF : forall j, (j < length ps)%nat -> off_the_end (nth j ps no_material) 0 -> exists p, In p ps /\ off_the_end p 0) by (intros j Hj Ho; eexists; split; [apply nth_In; exact Hj|exact Ho]).
  assert (E0 : exists M0, ncsr_build ROps (sA _ S) = Ok M0).
  { destruct (start_ok m ps S MP FT (repeat 1 (length (m_tris m)))) as [M0 [_ [_ [E0 _]]]]; [apply repeat_length| |eauto]. intros i Hi. rewrite repeat_length in Hi. unfold vget. rewrite nth_indep with (d' := 1) by (rewrite repeat_length; auto). rewrite nth_repeat. lra. }
  destruct E0 as [M0 E0].
  assert (EU : (is_ub (initial_mu ROps ps) -> is_ub (ms_solve ROps exp vac m S))).
  { intros [s U]. unfold ms_solve. rewrite (props_filled m ps S MP). cbn [bind]. rewrite E0. cbn [bind]. rewrite U. eexists; reflexivity. }
  destruct (rest_ok m ps S MP PM) as [[U X]|[mu0 [E1 [AR [L P]]]]]; [left; split; auto|].
  destruct (start_ok m ps S MP FT mu0 L P) as [M0' [M [C [E0' [E2 [E3 [E4 [RD RC]]]]]]]]. rewrite E0 in E0'. injection E0' as <-.
  set (zz := all_zero (length (m_points m))). assert (Lz : length zz = length (m_points m)) by apply repeat_length.
  destruct (silent_field m zz) as [Bs [EC [LB BZ]]]; [exists ps; apply lo|reflexivity|].
  assert (LQ : (length Bs <= length ps)%nat) by lia. assert (LM : length mu0 = length Bs) by congruence.
  assert (TP : 0 < 1 / IZR (10 ^ 7)) by (apply Rdiv_lt_0_compat; [lra|apply IZR_lt; reflexivity]).
  pose proof (silent_inner m ps es a b c S0 S lo hp nm nj e0 e1 mu0 C (1 / IZR (10 ^ 7)) 50 L P RD TP) as EI. unfold run in EI. fold zz in EI.
  assert (PRE : ms_solve ROps exp vac m S = ('(q, st) <- passes ROps exp vac m S ps (3 / 2) (1 / IZR (10 ^ 7)) 500 0 (@mkPass ROps zz mu0 M (sb R (sys_eval S mu0)) (zeros ROps (length (sb _ S))) (IZR (10 ^ 10))) ;; Ok (q_x q, q_mu q, st))).
  { unfold ms_solve. rewrite (props_filled m ps S MP). cbn [bind]. rewrite E0. cbn [bind]. rewrite E1. cbn [bind]. rewrite E2. cbn [bind]. rewrite E3. cbn [bind].
    cbn [div ofZ one ROps]. change (T ROps) with R in *. rewrite Rdivr_ok by lra. cbn [bind]. rewrite FL. rewrite Rdivr_ok by (apply IZR_neq; discriminate). reflexivity. }
  destruct (updateMu_defined vac Bs ps mu0 (IZR (10 ^ 10)) 0 LM LQ PM) as [UB OK]. change (T ROps) with R in *. destruct OK as [U|[mu' EM]].
  - left. destruct (proj1 UB U) as [j [Hj OE]]. split.
    + destruct U as [s U]. exists s. rewrite PRE. rewrite passes_first by discriminate. unfold one_pass. cbn [q_F q_b q_x q_mu q_res]. rewrite E4. change (T ROps) with R in *. rewrite EI. cbn [bind]. rewrite EC. cbn [bind]. rewrite U. reflexivity.
    + rewrite BZ in OE. rewrite dist_same in OE. apply (OFF j); auto. lia.
  - right. exists mu'. pose proof (updateMu_positive vac Bs ps mu0 (IZR (10 ^ 10)) 0 mu' Hvac LM LQ PM P EM) as P'. destruct (updateMu_values vac Bs ps mu0 (IZR (10 ^ 10)) 0 mu' LM LQ EM) as [Lm' _].
    assert (Ln : length mu' = length (m_tris m)) by congruence. destruct (matrix_ok m ps S MP FT mu' M Ln P' RC) as [M' [C' [E5 [E6 [RD' RC']]]]]. destruct (K mu' Ln P') as [OK' _].
    destruct (residual_ok m ps S MP mu' C' (zeros ROps (length (sb _ S))) zz Ln RD') as [y [z [EY [EZ [LZ EN]]]]]; auto; [unfold zeros; rewrite repeat_length; exact LS|].
    assert (EP : ms_solve ROps exp vac m S = Ok (zz, mu', Some 0%nat)).
    { rewrite PRE. rewrite passes_first by discriminate. unfold one_pass. cbn [q_F q_b q_x q_mu q_res q_r]. rewrite E4. change (T ROps) with R in *. rewrite EI. cbn [bind]. rewrite EC. cbn [bind]. rewrite EM. cbn [bind]. rewrite E5. cbn [bind].
      rewrite (rhs_ok S mu' OK'). cbn [bind]. rewrite E6, EY. cbn [bind]. cbn [sub ROps]. change (T ROps) with R in *. rewrite EZ. cbn [bind]. rewrite EN. cbn [bind q_res].
      pose proof (silent_residual m ps es a b c S0 S lo hp nm nj e0 e1 mu' Ln P') as SR. fold zz in SR. change (T ROps) with R in *. rewrite SR. cbn [ltb ROps]. rewrite (proj2 (Rltb_true 0 (1 / IZR (10 ^ 7))) TP). reflexivity. }
    split; [exact EP|]. intros e He NLe. pose proof (C65_early_convergence vac m ps S zz mu' 0 Hvac MP FT PM EP e He NLe) as Q. unfold left_over in Q. cbn [INR] in Q.
    replace (- (0 * (0 + 1)) / 10) with 0 in Q by field. rewrite exp_0 in Q. lra.
Qed.
Print Assumptions C99_no_source_curves.

(** *** cases meeting the hypotheses: the square between two electrodes at 0 V, two joined squares likewise, and the square
    half of air and half of iron without current *)
Lemma sqp_silent : forall p q : mprop ROps, p_J p = 0 -> p_J q = 0 -> exists S, silent (sqp p q) [p; q] [] S.
Proof.
  intros p q Jp Jq. destruct (sqp_problem p q) as [_ [RD [U _]]].
  destruct C59_example as [_ [_ [_ [a [b [c [F [ND HP]]]]]]]].
  destruct (C37_total_load _ (sqp p q) [p; q] p_J p_M RD ltac:(cbn; lia) ltac:(intros r []) []) as [S [E _]].
  assert (HP' : pins (sqp p q) [a; b; c]).
  { intros v Hv. destruct (HP v Hv) as [u [Iu L]]. exists u. split; auto. clear - L. induction L as [|u v w t L IH I1 I2 I3]; [constructor|]. eapply linked_step; eauto. }
  destruct (C49_three_farthest (m_points sqm)) as [a' [b' [c' [F' [La [Lb [Lc _]]]]]]].
  { destruct C49_example as [D1 [D2 D3]]. exists 1%nat, 2%nat, 3%nat. cbn [length m_points sqm]. repeat split; auto; lia. }
  rewrite F in F'. injection F' as <- <- <-.
  destruct (ms_pinned _ (sqp p q) [p; q] p_J p_M [] S a b c RD U E F ND La Lb Lc HP' [1; 1] eq_refl) as [S' [E' _]].
  { intros [|[|i]] Hi; cbn in Hi |- *; try lra. lia. }
  exists S'. split; [|split; [intros r []|intros r [<-|[<-|[]]]; auto]].
  exists a, b, c, S. split; [|auto]. split; auto. split; auto. split; [constructor|]. split; [intros g []|]. split; [constructor|]. repeat (split; auto).
Qed.
Example C99_met : (forall q : pt * R, In q [(P 0 0, 0); (P 2 2, 0)] -> snd q = 0) /\
  fem_ready sqm [3; 5] /\ all_used sqm /\ Forall2 (fun (c : pt * R) id => closest (m_points sqm) (fst c) id) [(P 0 0, 0); (P 2 2, 0)] [0; 2]%nat /\ pins sqm [0; 2]%nat /\
  ready_layers plates [[3; 5]; [3; 5]] /\ laid plates [via (1 / 2)] [(0, 4)%nat] /\ Forall2 (fun c u => addresses plates (fst (fst c)) (snd c) u) plate_calls [0; 6]%nat /\ grounded plates [(0, 4)%nat] [0; 6]%nat /\
  exists S, silent (sqp (coil_of 0 1) iron) [coil_of 0 1; iron] [] S /\ fits (sA _ S) /\ Forall proper_material [coil_of 0 1; iron] /\
    Exists (fun p : mprop ROps => p_bh p <> []) [coil_of 0 1; iron] /\
    exists T, silent (sqp (coil_of 0 1) (coil_of 0 2)) [coil_of 0 1; coil_of 0 2] [] T /\ fits (sA _ T) /\ Forall (fun p : mprop ROps => p_bh p = [] /\ 0 < p_mu p) [coil_of 0 1; coil_of 0 2].
Proof.
  split; [intros q [<-|[<-|[]]]; reflexivity|]. split; [apply sqm_ready|]. split; [apply sqm_ready|]. split; [pose proof sqm_closest as H; inversion H as [|? ? ? ? H1 H2]; subst; inversion H2 as [|? ? ? ? H3 H4]; subst; constructor; [exact H1|constructor; [exact H3|constructor]]|].
  split; [apply sqm_pins|]. split; [apply two_ready|]. split; [apply plates_laid; lra|]. split; [apply plates_held|]. split; [apply C96_met|].
  assert (FT : forall p q S, silent (sqp p q) [p; q] [] S -> fits (sA _ S)).
  { intros p q S [[a [b [c [S0 [lo [hp [e0 e1]]]]]]] _]. pose proof (silent_problem _ _ _ a b c S0 S lo hp e0 e1) as MP. destruct (problem_facts _ _ _ MP) as [_ [[V [C _]] [L _]]]. apply fits_small; auto. rewrite C, L. cbn. lia. }
  destruct (sqp_silent (coil_of 0 1) iron eq_refl eq_refl) as [S HS]. exists S. split; auto. split; [eapply FT; eauto|].
  split; [constructor; [left; split; [reflexivity|unfold coil_of; cbn; lra]|]; constructor; [right; split; [cbn; lia|exact iron_increasing]|constructor]|].
  split; [apply Exists_cons_tl, Exists_cons_hd; discriminate|].
  destruct (sqp_silent (coil_of 0 1) (coil_of 0 2) eq_refl eq_refl) as [T HT]. exists T. split; auto. split; [eapply FT; eauto|]. repeat constructor; unfold coil_of; cbn; lra.
Qed.
