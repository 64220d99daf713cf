(** Proofs about problems without or with weak sources, over the reals. *)
From Coq Require Import String.
From Coq Require Import List Arith ZArith NArith Bool Lia Reals Lra.
From Verif Require Import Base SumR AlgebraModel AlgebraSpec Csr_proofs Vec_proofs System_proofs Algebra_bridge SolversModel SolversSpec Solver_proofs Solvers_bridge GeometryModel GeometrySpec Geometry_proofs
  MeshModel MeshSpec Energy_proofs Pin_proofs LayersModel LayersSpec Voltage_proofs Layers_proofs Wiring_proofs Conductor_proofs Phys_proofs Stack_proofs ZeroSpec.
Import ListNotations.
Local Open Scope R_scope.

(** a start that is good enough is returned as it is *)
Lemma start_enough : forall (A : coo R) (C : csr R) (b x : list R) (w e : R) k, ready 0 A C -> length b = cm A -> length x = cm A -> spd A -> usable (SsorCG w) A C -> e <> 0 ->
  residual_norm A b x < Rabs e -> run ROps (SsorCG w) C b x e k = Ok (x, Some 0%nat).
Proof.
  intros A C b x w e k RD Lb Lx SP US NE H. destruct (all_finish A C b x RD Lb Lx SP (SsorCG w) e k US NE) as [x' [st [E _]]]; [discriminate|].
  assert (N1 : (1 <= m C)%nat) by (destruct US as [_ US]; rewrite (rM A C RD); lia).
  destruct (ssor_run A C b x RD Lb Lx w e k N1) as [_ ER]. rewrite ER in E |- *.
  destruct (ssor_f C w (r0 C b x)) as [z|?|?|?]; cbn [bind] in *; try discriminate E.
  assert (B : Rltb (dotR (r0 C b x) (r0 C b x)) (e * e) = true).
  { apply Rltb_true. rewrite (res_sq C b x (r0 C b x) (r0_len A C b x RD Lb) (r0_res A C b x RD Lb)). apply (sqrt_lt_abs _ e); [apply resid_sq_nonneg|]. rewrite <- (resid_eq A C RD). exact H. }
  rewrite B. reflexivity.
Qed.
Lemma vget_zeros : forall n i, vget (all_zero n) i = 0.
Proof. intros n i. unfold vget, all_zero. apply nth_repeat. Qed.
Lemma row_zeros : forall (A : coo R) n i, row A (all_zero n) i = 0.
Proof. intros A n i. unfold row. apply sumn_0. intros j _. rewrite vget_zeros. ring. Qed.
(** the residual of zero is the size of the right-hand side *)
Definition size (n : nat) (b : list R) : R := sqrt (sumn n (fun i => vget b i * vget b i)).
Lemma residual_zeros : forall (A : coo R) b n, residual_norm A b (all_zero n) = size (cm A) b.
Proof. intros A b n. unfold residual_norm, size. f_equal. apply sumn_ext. intros i _. rewrite row_zeros. ring. Qed.
Lemma size_zero : forall n b, (forall i, (i < n)%nat -> vget b i = 0) -> size n b = 0.
Proof. intros n b H. unfold size. rewrite sumn_0; [apply sqrt_0|]. intros i Hi. rewrite H by auto. ring. Qed.
Lemma vget_scaled : forall c (b : list R) i, vget (map (Rmult c) b) i = c * vget b i.
Proof.
  intros c b i. unfold vget. destruct (Nat.lt_ge_cases i (length b)) as [H|H].
  - rewrite nth_indep with (d' := c * 0) by (rewrite map_length; auto). rewrite (map_nth (Rmult c)). reflexivity.
  - rewrite !nth_overflow by (try rewrite map_length; auto). ring.
Qed.
Lemma size_scaled : forall c n b, size n (map (Rmult c) b) = Rabs c * size n b.
Proof.
  intros c n b. unfold size. rewrite (sumn_ext _ _ (fun i => c * c * (vget b i * vget b i))) by (intros; rewrite !vget_scaled; ring). rewrite sumn_scal.
  rewrite sqrt_mult; [|apply Rle_0_sqr|apply sumn_nonneg; intros; apply Rle_0_sqr]. f_equal. apply sqrt_Rsqr_abs.
Qed.

(** ** imposing multiples of the voltages *)
Definition sys_times (c : R) (S : rsys) : rsys := mkSys R (sA R S) (map (Rmult c) (sb R S)).
Lemma get_scaled : forall c (b : list R) i x, get b i = Ok x -> get (map (Rmult c) b) i = Ok (c * x).
Proof. intros c b i x H. unfold get in *. rewrite nth_error_map. destruct (nth_error b i); cbn in *; congruence. Qed.
Lemma upd_scaled : forall c (b : list R) i x, upd (map (Rmult c) b) i (c * x) = map (Rmult c) (upd b i x).
Proof. intros c b. induction b as [|y b IH]; intros [|i] x; cbn; auto. rewrite IH. reflexivity. Qed.
Lemma set_scaled : forall c (b : list R) i x b', set b i x = Ok b' -> set (map (Rmult c) b) i (c * x) = Ok (map (Rmult c) b').
Proof.
  intros c b i x b' H. unfold set in *. rewrite map_length. destruct (Nat.ltb i (length b)); [|discriminate]. injection H as <-. rewrite upd_scaled. reflexivity.
Qed.

Lemma modify_scaled : forall c (b : list R) i a v b', vmodify R b i (fun t => t - a * v) = Ok b' -> vmodify R (map (Rmult c) b) i (fun t => t - a * (c * v)) = Ok (map (Rmult c) b').
Proof.
  intros c b i a v b' H. unfold vmodify in *. destruct (get b i) as [x|?|?|?] eqn:E; cbn [bind] in H; try discriminate H. rewrite (get_scaled c b i x E). cbn [bind].
  replace (c * x - a * (c * v)) with (c * (x - a * v)) by ring. apply set_scaled; auto.
Qed.
Lemma elem_scaled : forall c id v kv (b : list R) kv' b', dirichlet_elem ROps R (fun a d => a * d) Rminus (fun d => d) id v kv b = Ok (kv', b') ->
  dirichlet_elem ROps R (fun a d => a * d) Rminus (fun d => d) id (c * v) kv (map (Rmult c) b) = Ok (kv', map (Rmult c) b').
Proof.
  intros c id v kv b kv' b' H. unfold dirichlet_elem in *. destruct (Nat.eqb (krow (fst kv)) (kcol (fst kv))); [injection H as <- <-; reflexivity|].
  destruct (Nat.eqb (krow (fst kv)) id).
  - destruct (vmodify R b (kcol (fst kv)) _) as [b1|?|?|?] eqn:E1; cbn [bind] in H; try discriminate H. rewrite (modify_scaled c _ _ _ _ _ E1). cbn [bind].
    destruct (Nat.eqb (kcol (fst kv)) id).
    + destruct (vmodify R b1 (krow (fst kv)) _) as [b2|?|?|?] eqn:E2; cbn [bind] in H; try discriminate H. injection H as <- <-. rewrite (modify_scaled c _ _ _ _ _ E2). reflexivity.
    + cbn [bind] in *. injection H as <- <-. reflexivity.
  - cbn [bind] in *. destruct (Nat.eqb (kcol (fst kv)) id).
    + destruct (vmodify R b (krow (fst kv)) _) as [b2|?|?|?] eqn:E2; cbn [bind] in H; try discriminate H. injection H as <- <-. rewrite (modify_scaled c _ _ _ _ _ E2). reflexivity.
    + cbn [bind] in *. injection H as <- <-. reflexivity.
Qed.
Lemma loop_scaled : forall c id v l (b : list R) l' b', dirichlet_loop ROps R (fun a d => a * d) Rminus (fun d => d) id v l b = Ok (l', b') ->
  dirichlet_loop ROps R (fun a d => a * d) Rminus (fun d => d) id (c * v) l (map (Rmult c) b) = Ok (l', map (Rmult c) b').
Proof.
  intros c id v l. induction l as [|kv l IH]; intros b l' b' H; cbn [dirichlet_loop] in *; [injection H as <- <-; reflexivity|].
  destruct (dirichlet_elem _ _ _ _ _ id v kv b) as [[kv1 b1]|?|?|?] eqn:E1; cbn [bind] in H; try discriminate H. rewrite (elem_scaled c _ _ _ _ _ _ E1). cbn [bind].
  destruct (dirichlet_loop _ _ _ _ _ id v l b1) as [[l2 b2]|?|?|?] eqn:E2; cbn [bind] in H; try discriminate H. rewrite (IH _ _ _ E2). cbn [bind]. injection H as <- <-. reflexivity.
Qed.
Lemma dirichlet_scaled : forall c (S : rsys) id v S', dDirichlet ROps S id v = Ok S' -> dDirichlet ROps (sys_times c S) id (c * v) = Ok (sys_times c S').
Proof.
  intros c S id v S' H. unfold dDirichlet, addDirichlet in *. cbn [sys_times sA sb mul sub zero ROps] in *. change (T ROps) with R in *.
  destruct (dirichlet_loop ROps R _ _ _ id v (elems (sA R S)) (sb R S)) as [[l b]|?|?|?] eqn:E1; cbn [bind] in H; try discriminate H. pose proof (loop_scaled c _ _ _ _ _ _ E1) as E1'. change (T ROps) with R in *. rewrite E1'. cbn [bind].
  destruct (coo_modify _ _ id id _) as [A|?|?|?] eqn:E2; cbn [bind] in *; try discriminate H.
  destruct (set b id v) as [b1|?|?|?] eqn:E3; cbn [bind] in H; try discriminate H. rewrite (set_scaled c _ _ _ _ E3). cbn [bind]. injection H as <-. reflexivity.
Qed.
Lemma all_scaled : forall c l (S S' : rsys), dirichlet_all S l = Ok S' -> dirichlet_all (sys_times c S) (map (fun q => (fst q, c * snd q)) l) = Ok (sys_times c S').
Proof.
  intros c l. induction l as [|[i v] l IH]; intros S S' H; cbn [map dirichlet_all fst snd] in *; [injection H as <-; reflexivity|].
  destruct (dDirichlet ROps S i v) as [S1|?|?|?] eqn:E; cbn [bind] in H; try discriminate H. rewrite (dirichlet_scaled c _ _ _ _ E). cbn [bind]. apply IH; auto.
Qed.
Lemma combine_scaled : forall c (ids : list nat) (vs : list R), combine ids (map (Rmult c) vs) = map (fun q => (fst q, c * snd q)) (combine ids vs).
Proof. intros c ids. induction ids as [|i ids IH]; intros [|v vs]; cbn; auto. rewrite IH. reflexivity. Qed.
Lemma sys_times_zero : forall c (S : rsys), (forall i, vget (sb R S) i = 0) -> sys_times c S = S.
Proof.
  intros c [A b] H. unfold sys_times. cbn [sA sb] in *. f_equal. induction b as [|x b IH]; [reflexivity|]. cbn [map]. pose proof (H 0%nat) as H0. unfold vget in H0. cbn in H0. subst x.
  rewrite Rmult_0_r. f_equal. apply IH. intros i. apply (H (Datatypes.S i)).
Qed.
(** ** solve *)
Lemma solve_weak : forall (S : rsys) (tol : Z), valid_system S -> all_diag_touched (sA R S) -> fits (sA R S) -> spd (sA R S) -> sdim S <> 0%nat -> (0 < tol)%Z ->
  size (sdim S) (sb R S) < 1 / IZR tol -> cd_solve_to ROps tol (sdim S) S = Ok (all_zero (sdim S)).
Proof.
  intros S tol W D F SP NZ Ht H. pose proof W as [Wc [C0 U0]]. fold (sdim S) in C0, U0. destruct (built (sA R S) Wc F D) as [C [E _]].
  unfold cd_solve_to. cbn [zero one ofZ div ROps]. change (T ROps) with R in *. rewrite E. cbn [bind]. rewrite !Rdivr_ok; [|apply IZR_neq; lia|lra]. cbn [bind].
  assert (IT : 0 < IZR tol) by (apply IZR_lt; auto). assert (PT : 0 < 1 / IZR tol) by (apply Rdiv_lt_0_compat; lra).
  assert (LZ : length (zeros ROps (sdim S)) = cm (sA R S)) by (unfold zeros; rewrite repeat_length; auto).
  pose proof (start_enough (sA R S) C (sb R S) (zeros ROps (sdim S)) (3 / 2) (1 / IZR tol) (N.to_nat 100000) (conj Wc (conj F (conj D E))) (eq_sym C0) LZ SP) as K.
  unfold run in K. cbn [T ROps] in K. change (T ROps) with R in *. rewrite K; [reflexivity| |lra|].
  - split; [lra|]. rewrite C0. auto.
  - rewrite Rabs_right by lra. change (zeros ROps (sdim S)) with (all_zero (sdim S)). rewrite residual_zeros, C0. exact H.
Qed.

Lemma keeps_all : forall l (S S' : rsys), valid_system S -> (forall p, In p l -> (fst p < sdim S)%nat) -> dirichlet_all S l = Ok S' -> valid_system S' /\ sdim S' = sdim S /\ (all_diag_touched (sA R S) -> all_diag_touched (sA R S')).
Proof.
  intros l. induction l as [|[i v] q IH]; intros S S' VS LB E'; cbn [dirichlet_all] in E'; [inversion E'; subst; auto|].
  destruct (dDirichlet ROps S i v) as [S1|s|s|s] eqn:E1; cbn [bind] in E'; try discriminate E'. assert (Hi : (i < sdim S)%nat) by (apply (LB (i, v)); cbn; auto).
  destruct (dirichlet_keeps S i v S1 VS Hi E1) as [W1 [L1 D1]]. destruct (IH S1 S' W1) as [Q1 [Q2 Q3]]; auto; [intros p Hp; rewrite L1; apply LB; cbn; auto|]. split; [auto|]. split; [congruence|auto].
Qed.
Lemma fst_combine : forall X (P : X -> nat -> Prop) (f : X -> R) l ids, Forall2 P l ids -> map fst (combine ids (map f l)) = ids.
Proof. intros X P f l ids F. induction F as [|c i l ids H F IH]; cbn [map combine fst]; [reflexivity|]. rewrite IH. reflexivity. Qed.
(** ** the nodes that setVoltage holds *)
Definition pinned (S : rsys) (i : nat) (v : R) : Prop := (forall j, (j < sdim S)%nat -> value 0 (sA R S) i j = if Nat.eqb j i then 1 else 0) /\ vget (sb R S) i = v.
Lemma pinned_step : forall (S S' : rsys) id w i v, valid_system S -> (id < sdim S)%nat -> (i < sdim S)%nat -> dDirichlet ROps S id w = Ok S' -> (i = id /\ v = w) \/ (i <> id /\ pinned S i v) -> pinned S' i v.
Proof.
  intros S S' id w i v W Hid Hi E H. apply valid_wf in W. destruct (dDirichlet_ok S id w W Hid) as [S'' [E' [_ [L [EN B]]]]]. rewrite E in E'. injection E' as <-.
  destruct H as [[-> ->]|[N [H1 H2]]]; split.
  - intros j Hj. rewrite L in Hj. specialize (EN id j Hi Hj). unfold sent in EN. rewrite EN, Nat.eqb_refl. reflexivity.
  - rewrite B, Nat.eqb_refl by auto. reflexivity.
  - intros j Hj. rewrite L in Hj. specialize (EN i j Hi Hj). unfold sent in EN. rewrite EN, H1 by auto. destruct (Nat.eqb_spec i id); [congruence|]. destruct (Nat.eqb_spec j id) as [Ej|Nj]; [|reflexivity]. destruct (Nat.eqb_spec j i); [congruence|reflexivity].
  - rewrite B by auto. destruct (Nat.eqb_spec i id); [congruence|]. unfold sent. rewrite H1 by auto. destruct (Nat.eqb_spec id i); [congruence|]. rewrite H2. ring.
Qed.
Lemma pinned_all : forall l (S S' : rsys), valid_system S -> (forall p, In p l -> (fst p < sdim S)%nat) -> dirichlet_all S l = Ok S' -> forall i v, (i < sdim S)%nat -> last_value l i = Some v \/ (last_value l i = None /\ pinned S i v) -> pinned S' i v.
Proof.
  intros l. induction l as [|[id w] q IH]; intros S S' VS LB E i v Hi H; cbn [dirichlet_all] in E.
  - injection E as <-. destruct H as [H|[_ H]]; [discriminate H|exact H].
  - destruct (dDirichlet ROps S id w) as [S1|s|s|s] eqn:E1; cbn [bind] in E; try discriminate E. assert (Hid : (id < sdim S)%nat) by (apply (LB (id, w)); cbn; auto).
    destruct (dirichlet_keeps S id w S1 VS Hid E1) as [W1 [L1 _]]. apply (IH S1 S' W1); auto; [intros p Hp; rewrite L1; apply LB; cbn; auto|rewrite L1; auto|].
    rewrite last_value_cons in H. destruct (last_value q i) as [u|]; [left; destruct H as [H|[H _]]; congruence|right]. split; auto.
    apply (pinned_step S S1 id w i v VS Hid Hi E1). destruct (Nat.eqb_spec id i) as [->|N]; [left|right].
    + split; auto. destruct H as [H|[H _]]; congruence.
    + split; auto. destruct H as [H|[_ H]]; [congruence|exact H].
Qed.
(** a small residual keeps the held nodes near their values *)
Lemma pinned_near : forall (S : rsys) (x : list R) e i v, valid_system S -> (i < sdim S)%nat -> pinned S i v -> residual_norm (sA R S) (sb R S) x < e -> Rabs (vget x i - v) < e.
Proof.
  intros S x e i v [_ [C _]] Hi [H1 H2] H. fold (sdim S) in C. eapply Rle_lt_trans; [|exact H]. unfold residual_norm. rewrite C. rewrite Rabs_minus_sym, <- sqrt_Rsqr_abs. apply sqrt_le_1_alt. unfold Rsqr.
  assert (RW : row (sA R S) x i = vget x i).
  { unfold row. rewrite C. rewrite (sumn_single (sdim S) i); auto; [rewrite H1, Nat.eqb_refl by auto; ring|]. intros j Hj N. rewrite H1 by auto. rewrite (proj2 (Nat.eqb_neq _ _)) by auto. ring. }
  set (f := fun i => (vget (sb R S) i - row (sA R S) x i) * (vget (sb R S) i - row (sA R S) x i)). replace ((v - vget x i) * (v - vget x i)) with (f i) by (unfold f; rewrite RW, H2; reflexivity).
  assert (P : forall k, 0 <= f k) by (intros k; unfold f; apply Rle_0_sqr). clearbody f. clear - P Hi.
  induction (sdim S) as [|k IH]; [lia|]. cbn [sumn]. pose proof (P k). pose proof (sumn_nonneg k f (fun j _ => P j)). destruct (Nat.eq_dec i k) as [->|N]; [lra|]. assert (f i <= sumn k f) by (apply IH; lia). lra.
Qed.
(** what solve starts from: one conductor *)
Lemma conductor_ready : forall A (m : mesh ROps A) ps (sigma : A -> R) l ids, fem_ready m ps -> all_used m -> (forall p, In p ps -> 0 < sigma p) -> 0 < m_depth m -> m_points m <> [] ->
  Forall2 (fun c id => closest (m_points m) (fst c) id) l ids -> pins m ids ->
  exists S S', cd_getFemSystem ROps A sigma m = Ok S /\ valid_system S' /\ sdim S' = length (m_points m) /\ all_diag_touched (sA R S') /\ spd (sA R S') /\
    voltages m S l = Ok S' /\ (forall c, voltages m S (times c l) = Ok (sys_times c S')) /\ forall i v, last_value (combine ids (map snd l)) i = Some v -> (i < length (m_points m))%nat /\ pinned S' i v.
Proof.
  intros A m ps sigma l ids RD U Hs Hd NE FI HP. destruct (cd_values m ps sigma RD U) as [S [E [VS [L [DT [VM VB]]]]]].
  assert (EV : forall l', Forall2 (fun c id => closest (m_points m) (fst c) id) l' ids -> voltages m S l' = dirichlet_all S (combine ids (map snd l'))).
  { intros l' F'. destruct (voltages_dirichlet A m l' S NE) as [ids' [F2 EV]]. rewrite EV. rewrite (Phys_proofs.held_ids A m l' ids' ids F2 F'). reflexivity. }
  assert (LB : forall p, In p (combine ids (map snd l)) -> (fst p < sdim S)%nat).
  { intros [i v] I. cbn [fst]. destruct (F2_combine_in _ _ _ _ _ _ _ _ _ FI I) as [c Hc]. rewrite L. eapply closest_lt; eauto. }
  destruct (dirichlet_runs (combine ids (map snd l)) S VS LB) as [S' E']. destruct (keeps_all _ _ _ VS LB E') as [V' [L' D']].
  destruct (psd_all (combine ids (map snd l)) S S' VS LB E') as [_ [_ [_ P']]].
  { rewrite (fst_combine _ _ _ _ _ FI). apply (energy_definite m ps RD (fun x => sigma (snd (snd x)) * m_depth m) S L VM); auto. intros e He. apply Rmult_lt_0_compat; auto. apply Hs. eapply elements_prop; eauto. }
  exists S, S'. split; auto. split; auto. split; [congruence|]. split; [auto|]. split; [unfold spd; destruct V' as [_ [C _]]; rewrite C; exact P'|]. split; [rewrite EV; auto|].
  assert (LK : forall i v, last_value (combine ids (map snd l)) i = Some v -> (i < sdim S)%nat /\ pinned S' i v).
  { intros i v H. assert (Hi : (i < sdim S)%nat).
    { destruct (in_dec Nat.eq_dec i (map fst (combine ids (map snd l)))) as [I|I]; [apply in_map_iff in I; destruct I as [p [<- I]]; auto|]. apply first_value_none in I. apply first_last_none in I. congruence. }
    split; auto. eapply pinned_all; [exact VS|exact LB|exact E'|exact Hi|left; exact H]. }
  split; [|intros i v H; rewrite <- L; apply LK; exact H].
  intros c. rewrite EV.
  - unfold times. rewrite map_map. cbn [snd]. rewrite <- (map_map snd (Rmult c)). rewrite combine_scaled. rewrite <- (sys_times_zero c S VB). apply all_scaled. exact E'.
  - unfold times. clear - FI. induction FI; cbn; constructor; auto.
Qed.
(** and several layers *)
Lemma layers_ready : forall A (ms : list (mesh ROps A)) pss (sigma : A -> R) links es l us, ready_layers ms pss -> wired ms links es -> across links -> distinct es ->
  Forall (fun k : link ROps => 0 < k_R k) links -> (forall ps p, In ps pss -> In p ps -> 0 < sigma p) -> Forall (fun m : mesh ROps A => 0 < m_depth m) ms ->
  Forall2 (fun c u => addresses ms (fst (fst c)) (snd c) u) l us -> (forall v, (v < nodes ms)%nat -> exists u, In u us /\ wired_to ms es u v) ->
  exists S S', ml_system ROps A sigma finite_R ms links = Ok S /\ valid_system S' /\ sdim S' = nodes ms /\ all_diag_touched (sA R S') /\ spd (sA R S') /\
    ml_voltages ms S l = Ok S' /\ (forall c, ml_voltages ms S (stack_times c l) = Ok (sys_times c S')) /\ forall i v, last_value (combine us (map (fun c => snd (fst c)) l)) i = Some v -> (i < nodes ms)%nat /\ pinned S' i v.
Proof.
  intros A ms pss sigma links es l us RD W Ac Ds HR Hs Hd FI HP.
  destruct (wired_system sigma ms pss RD links es W Ac Ds) as [Ss [S [FE [FS [ES [VS [LS [DT [VB [_ [_ HQ]]]]]]]]]]].
  assert (Hl : forall l', Forall2 (fun (c : pt * R * nat) u => addresses ms (fst (fst c)) (snd c) u) l' us -> Forall (fun c : pt * R * nat => exists m, nth_error ms (snd c) = Some m /\ m_points m <> []) l').
  { intros l' F. clear - F. induction F as [|c u l' us [m [i [N [C _]]]] F IH]; constructor; auto. exists m. split; auto. apply closest_lt in C. destruct (m_points m); [cbn in C; lia|discriminate]. }
  assert (EV : forall l', Forall2 (fun (c : pt * R * nat) u => addresses ms (fst (fst c)) (snd c) u) l' us -> ml_voltages ms S l' = dirichlet_all S (combine us (map (fun c => snd (fst c)) l'))).
  { intros l' F'. destruct (ml_voltages_dirichlet A ms l' (Hl l' F')) as [us' [F2 EV]]. rewrite EV. rewrite (Stack_proofs.stack_ids A ms l' us' us F2 F'). reflexivity. }
  assert (LB : forall p, In p (combine us (map (fun c => snd (fst c)) l)) -> (fst p < sdim S)%nat).
  { intros [i v] I. cbn [fst]. destruct (F2_combine_in _ _ _ _ _ _ _ _ _ FI I) as [c Hc]. rewrite LS. eapply addresses_lt; eauto. }
  destruct (dirichlet_runs _ S VS LB) as [S' E']. destruct (keeps_all _ _ _ VS LB E') as [V' [L' D']].
  destruct (psd_all _ S S' VS LB E') as [_ [_ [_ P']]].
  { rewrite (fst_combine _ _ _ _ _ FI). apply (wired_definite sigma ms pss RD links es Ss S W HR Hs Hd FE LS HQ us HP). }
  exists S, S'. split; auto. split; auto. split; [congruence|]. split; [auto|]. split; [unfold spd; destruct V' as [_ [C _]]; rewrite C; exact P'|]. split; [rewrite EV; auto|].
  assert (LK : forall i v, last_value (combine us (map (fun c => snd (fst c)) l)) i = Some v -> (i < sdim S)%nat /\ pinned S' i v).
  { intros i v H. assert (Hi : (i < sdim S)%nat).
    { destruct (in_dec Nat.eq_dec i (map fst (combine us (map (fun c => snd (fst c)) l)))) as [I|I]; [apply in_map_iff in I; destruct I as [p [<- I]]; auto|]. apply first_value_none in I. apply first_last_none in I. congruence. }
    split; auto. eapply pinned_all; [exact VS|exact LB|exact E'|exact Hi|left; exact H]. }
  split; [|intros i v H; rewrite <- LS; apply LK; exact H].
  intros c. rewrite EV.
  - unfold stack_times. rewrite map_map. cbn [fst snd]. rewrite <- (map_map (fun c => snd (fst c)) (Rmult c)). rewrite combine_scaled. rewrite <- (sys_times_zero c S VB). apply all_scaled. exact E'.
  - unfold stack_times. clear - FI. induction FI; cbn; constructor; auto.
Qed.
