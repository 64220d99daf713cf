(** Arbitrary lists of interconnections, and the whole computation of a conductor: assembly, voltages, solution. *)
From Coq Require Import String.
From Coq Require Import List Arith ZArith NArith Bool Lia Reals Lra.
From Verif Require Import Base SumR AlgebraModel AlgebraSpec SolversModel SolversSpec Solvers_bridge Coo_proofs Csr_proofs System_proofs Algebra_bridge GeometryModel GeometrySpec Geometry_proofs DrawingModel DrawingSpec
  MeshModel MeshSpec MeshGeo_proofs Fem_proofs Energy_proofs Wellposed_proofs LayersModel LayersSpec Voltage_proofs Layers_proofs Wiring_proofs.
Import ListNotations.
Local Open Scope R_scope.

(** ** Repeated interconnections *)
Lemma conns_values : forall l (M : coo R), valid_coo M -> is_u32 (cm M) -> bounded_conns (cm M) l -> Forall (fun e => fst (fst e) <> snd (fst e)) l ->
  exists M', conns l M = Ok M' /\ valid_coo M' /\ cm M' = cm M /\ (forall a b, touched M a b -> touched M' a b) /\
    (forall a b, (a < cm M)%nat -> (b < cm M)%nat -> a <> b -> value 0 M' a b = match last_link l a b with Some r => - (2 / r) | None => value 0 M a b end) /\
    (forall a, (a < cm M)%nat -> value 0 M' a a = value 0 M a a + at_node l a).
Proof.
  induction l as [|[[u v] r] l IH]; intros M W U B N; unfold conns; cbn [forM_list].
  - exists M. repeat split; auto; try apply W. intros. unfold at_node, suml. cbn. ring.
  - inversion B as [|? ? [Hu [Hv Hr]] B']; subst. inversion N as [|? ? Nuv N']; subst. cbn [fst snd] in *.
    destruct (conn_ok M u v r W U Hu Hv Hr) as [M1 [E1 [W1 [C1 [T1 V1]]]]]. rewrite E1. cbn [bind]. fold (conns l M1).
    destruct (IH M1 W1) as [M' [E' [W' [C' [T' [V' D']]]]]]; try (rewrite C1; auto); auto.
    exists M'. split; auto. split; auto. split; [congruence|]. split; [intros; auto|]. rewrite C1 in V', D'. split.
    + intros a b Ha Hb Nab. rewrite V' by auto. cbn [last_link]. destruct (last_link l a b); auto. rewrite V1 by auto. change (Nat.eqb a u && Nat.eqb b v || Nat.eqb a v && Nat.eqb b u)%bool with (on2 u v a b).
      destruct (on2 u v a b); auto. unfold on2. destruct (Nat.eqb_spec a u), (Nat.eqb_spec b u), (Nat.eqb_spec a v), (Nat.eqb_spec b v); subst; try congruence; cbn; ring.
    + intros a Ha. rewrite D' by auto. rewrite V1 by auto. unfold at_node. rewrite suml_cons. cbn [fst snd]. unfold on2.
      destruct (Nat.eqb_spec a u), (Nat.eqb_spec a v), (Nat.eqb_spec u a), (Nat.eqb_spec v a); subst; try congruence; cbn; ring.
Qed.

Section Any.
Context {A : Type}.
Variable sigma : A -> R.
Variable ms : list (mesh ROps A).
Variable pss : list (list A).
Hypothesis ready : ready_layers ms pss.
Lemma any_links : forall links es, wired ms links es -> Forall (fun e : nat * nat => fst e <> snd e) es ->
  exists Ss S, Forall2 (fun m Sm => cd_getFemSystem ROps A sigma m = Ok Sm) ms Ss /\
  ml_system ROps A sigma finite_R ms links = Ok S /\ valid_system S /\ sdim S = nodes ms /\ all_diag_touched (sA R S) /\ (forall u, vget (sb R S) u = 0) /\
  forall k l m m' Sk i j, nth_error ms k = Some m -> nth_error ms l = Some m' -> nth_error Ss k = Some Sk -> (i < length (m_points m))%nat -> (j < length (m_points m'))%nat ->
    let own := if Nat.eqb k l then value 0 (sA R Sk) i j else 0 in
    let a := (before ms k + i)%nat in let b := (before ms l + j)%nat in
    value 0 (sA R S) a b = if Nat.eqb a b then own + at_node (combine es (map k_R links)) a
                           else match last_link (combine es (map k_R links)) a b with Some r => - (2 / r) | None => own end.
Proof.
  intros links es W N. destruct (merged sigma ms pss ready) as [Ss [S0 [E [FS [FP [W0 [L0 [D0 [V0 [B0 ML]]]]]]]]]]. rewrite (ML links es W). pose proof W0 as [Wc [C0 U0]]. fold (sdim S0) in C0, U0.
  pose proof (wired_bounded ms links es W) as WB.
  destruct (conns_values (combine es (map k_R links)) (sA R S0) Wc) as [M' [E' [W' [C' [T' [V' D']]]]]]; [rewrite C0; auto|rewrite C0, L0; auto| |].
  { rewrite Forall_forall in *. intros [[u v] r] I. cbn [fst snd]. apply (N (u, v)). rewrite <- (combine_es ms links es W). apply in_map_iff. exists (u, v, r). auto. }
  rewrite E'. cbn [bind]. exists Ss. eexists. split; [|split; [reflexivity|]].
  { eapply F2_impl; [|exact FP]. intros m S [H _]. exact H. }
  split; [split; [exact W'|]; cbn [sA sb]; split; [exact (eq_trans C' C0)|exact U0]|]. split; [exact L0|]. cbn [sA sb]. split; [|split].
  - intros u Hu. apply T'. apply D0. rewrite <- C'. exact Hu.
  - intros u. rewrite B0. eapply blocks_loads; eauto. eapply F2_imp_r; [exact FP|]. intros m S [_ [_ H]]. exact H.
  - intros k l m m' Sk i j Hk Hl HS Hi Hj. set (own := if Nat.eqb k l then value 0 (sA R Sk) i j else 0). set (a := (before ms k + i)%nat). set (b := (before ms l + j)%nat).
    assert (La : (a < nodes ms)%nat) by (eapply before_lt; eauto). assert (Lb : (b < nodes ms)%nat) by (eapply before_lt; eauto).
    assert (OW : value 0 (sA R S0) a b = own) by (rewrite V0 by auto; apply (blocks_nodes A ms Ss FS k l m m' Sk i j); auto).
    destruct (Nat.eqb_spec a b) as [Eab|Nab].
    + rewrite <- Eab in *. rewrite D' by (rewrite C0, L0; auto). rewrite OW. reflexivity.
    + rewrite V' by (auto; rewrite C0, L0; auto). destruct (last_link _ a b); auto.
Qed.
(** an interconnection of a node with itself *)
Lemma self_link : forall k u, wired ms [k] [(u, u)] -> exists S, ml_system ROps A sigma finite_R ms [k] = Ok S /\ sdim S = nodes ms /\ (u < nodes ms)%nat /\ value 0 (sA R S) u u = - (2 / k_R k).
Proof.
  intros k u W. destruct (merged sigma ms pss ready) as [Ss [S0 [E [FS [FP [W0 [L0 [D0 [V0 [B0 ML]]]]]]]]]]. rewrite (ML [k] [(u, u)] W). pose proof W0 as [Wc [C0 U0]]. fold (sdim S0) in C0, U0.
  pose proof (wired_bounded ms [k] [(u, u)] W) as WB. inversion WB as [|? ? [Hu [_ Hr]] _]; subst. cbn [fst snd] in *.
  unfold conns. cbn [map combine forM_list fst snd]. destruct (conn_ok (sA R S0) u u (k_R k) Wc) as [M1 [E1 [W1 [C1 [T1 V1]]]]]; auto; try (rewrite C0; auto; rewrite L0; auto).
  change (T ROps) with R in *. rewrite E1. cbn [bind]. eexists. split; [reflexivity|]. split; [exact L0|]. split; [auto|]. cbn [sA]. rewrite V1 by (rewrite C0, L0; auto). unfold on2. rewrite !Nat.eqb_refl. reflexivity.
Qed.
End Any.

(** ** solve *)
Lemma solve_ok : forall (S : rsys) (tol : Z), valid_system S -> all_diag_touched (sA R S) -> fits (sA R S) -> spd (sA R S) -> sdim S <> 0%nat -> (N.of_nat (sdim S) <= 100000)%N -> (0 < tol)%Z ->
  exists x, cd_solve_to ROps tol (sdim S) S = Ok x /\ residual_norm (sA R S) (sb R S) x < 1 / IZR tol.
Proof.
  intros S tol W D F SP NZ LE Ht. pose proof W as [Wc [C0 U0]]. fold (sdim S) in C0, U0. destruct (built (sA R S) Wc F D) as [C [E _]].
  unfold cd_solve_to. cbn [zero one ofZ div ROps]. change (T ROps) with R in *. rewrite E. cbn [bind]. rewrite !Rdivr_ok; [|apply IZR_neq; lia|lra]. cbn [bind].
  assert (IT : 0 < IZR tol) by (apply IZR_lt; auto).
  assert (LZ : length (zeros ROps (sdim S)) = cm (sA R S)) by (unfold zeros; rewrite repeat_length; auto).
  destruct (finite_stop (sA R S) C (sb R S) (zeros ROps (sdim S)) (conj Wc (conj F (conj D E))) (eq_sym C0) LZ SP (SsorCG (3 / 2)) (1 / IZR tol) (N.to_nat 100000)) as [x' [i [RN RS]]].
  - split; [lra|]. rewrite C0. auto.
  - discriminate.
  - unfold Rdiv. rewrite Rmult_1_l. apply Rinv_neq_0_compat. lra.
  - discriminate.
  - rewrite C0. lia.
  - unfold run in RN. cbn [T ROps] in RN. change (T ROps) with R in *. rewrite RN. cbn [bind]. exists x'. split; auto. rewrite Rabs_right in RS; auto. apply Rle_ge. unfold Rdiv. rewrite Rmult_1_l. left. apply Rinv_0_lt_compat. auto.
Qed.
(** one conductor *)
Lemma conductor_run : forall A (m : mesh ROps A) ps (sigma : A -> R) (l : list (pt * R)), fem_ready m ps -> all_used m -> (forall p, In p ps -> 0 < sigma p) -> 0 < m_depth m -> m_points m <> [] ->
  exists S ids S', cd_getFemSystem ROps A sigma m = Ok S /\ Forall2 (fun c id => closest (m_points m) (fst c) id) l ids /\ voltages m S l = Ok S' /\ sdim S' = length (m_points m) /\
    (pins m ids -> spd (sA R S') /\ (forall y z, solves S' y -> solves S' z -> forall i, (i < length (m_points m))%nat -> y i = z i) /\
       (fits (sA R S') -> (N.of_nat (length (m_points m)) <= 100000)%N -> exists x, cd_solve ROps A m S' = Ok x /\ residual_norm (sA R S') (sb R S') x < 1 / IZR (10 ^ 12))).
Proof.
  intros A m ps sigma l RD U Hs Hd NE. destruct (cd_values m ps sigma RD U) as [S [E [VS [L [DT [VM VB]]]]]].
  destruct (voltages_dirichlet A m l S NE) as [ids [F EV]]. exists S, ids.
  assert (LB : forall p, In p (combine ids (map snd l)) -> (fst p < sdim S)%nat).
  { intros [i v] I. cbn [fst]. destruct (F2_combine_in _ _ _ _ _ _ _ _ _ F I) as [c Hc]. rewrite L. eapply closest_lt; eauto. }
  destruct (dirichlet_runs (combine ids (map snd l)) S VS LB) as [S' E'].
  exists S'. split; auto. split; auto. split; [rewrite EV; auto|].
  assert (KP : valid_system S' /\ sdim S' = sdim S).
  { clear - VS LB E'. revert S VS LB E'. induction (combine ids (map snd l)) as [|[i v] q IH]; intros S VS LB E'; cbn [dirichlet_all] in E'; [inversion E'; subst; auto|].
    destruct (dDirichlet ROps S i v) as [S1|s|s|s] eqn:E1; cbn [bind] in E'; try discriminate E'. assert (Hi : (i < sdim S)%nat) by (apply (LB (i, v)); cbn; auto).
    destruct (dirichlet_keeps S i v S1 VS Hi E1) as [W1 [L1 _]]. destruct (IH S1 W1) as [Q1 Q2]; auto; [intros p Hp; rewrite L1; apply LB; cbn; auto|]. split; congruence. }
  destruct KP as [V' L']. split; [rewrite L'; auto|]. intros HP.
  assert (FI : map fst (combine ids (map snd l)) = ids).
  { clear - F. induction F as [|c i l ids H F IH]; cbn [map combine fst]; [reflexivity|]. rewrite IH. reflexivity. }
  destruct (psd_all (combine ids (map snd l)) S S' VS LB E') as [_ [_ [D' P']]].
  { rewrite FI. apply (energy_definite m ps RD (fun x => sigma (snd (snd x)) * m_depth m) S L VM); auto. intros e He. apply Rmult_lt_0_compat; auto. apply Hs. eapply elements_prop; eauto. }
  assert (SP : spd (sA R S')) by (unfold spd; destruct V' as [_ [C _]]; rewrite C; exact P').
  split; auto. split.
  - intros y z Hy Hz i Hi. destruct (spd_solution S' V' SP) as [x [X UN]]. rewrite (UN y), (UN z); auto; rewrite L', L; auto.
  - intros FT LE. unfold cd_solve. replace (length (m_points m)) with (sdim S') by congruence. apply solve_ok; auto.
    + rewrite L', L. destruct (m_points m); [congruence|discriminate].
    + rewrite L', L. exact LE.
    + reflexivity.
Qed.
Lemma ml_voltages_dirichlet : forall A (ms : list (mesh ROps A)) l, Forall (fun c : pt * R * nat => exists m, nth_error ms (snd c) = Some m /\ m_points m <> []) l ->
  exists us, Forall2 (fun (c : pt * R * nat) u => addresses ms (fst (fst c)) (snd c) u) l us /\ forall S0, ml_voltages ms S0 l = dirichlet_all S0 (combine us (map (fun c => snd (fst c)) l)).
Proof.
  intros A ms l H. induction H as [|[[p v] k] l [m [Hk Hm]] H [us [F IH]]]; [exists []; split; [constructor|reflexivity]|]. cbn [snd] in Hk.
  destruct (ml_setVoltage_ok A ms (mkSys R (mkCoo [] 0) []) p v k m Hk Hm) as [u [Ad _]].
  exists (u :: us). split; [constructor; auto|]. intros S0. cbn [ml_voltages map combine fst snd dirichlet_all].
  destruct (ml_setVoltage_ok A ms S0 p v k m Hk Hm) as [u' [Ad' E]]. rewrite (addresses_unique _ _ _ _ _ _ Ad' Ad) in E. rewrite E.
  destruct (dDirichlet ROps S0 u v); cbn [bind]; auto.
Qed.
(** several layers *)
Lemma layers_run : forall A (ms : list (mesh ROps A)) pss (sigma : A -> R) links es (l : list (pt * R * nat)), ready_layers ms pss -> wired ms links es -> across links -> distinct es ->
  Forall (fun k : link ROps => 0 < k_R k) links -> (forall ps p, In ps pss -> In p ps -> 0 < sigma p) -> Forall (fun m : mesh ROps A => 0 < m_depth m) ms ->
  Forall (fun c : pt * R * nat => exists m, nth_error ms (snd c) = Some m /\ m_points m <> []) l ->
  exists S us S', ml_system ROps A sigma finite_R ms links = Ok S /\ Forall2 (fun c u => addresses ms (fst (fst c)) (snd c) u) l us /\ ml_voltages ms S l = Ok S' /\ sdim S' = nodes ms /\
    ((forall v, (v < nodes ms)%nat -> exists u, In u us /\ wired_to ms es u v) -> spd (sA R S') /\
       (forall y z, solves S' y -> solves S' z -> forall i, (i < nodes ms)%nat -> y i = z i) /\
       (fits (sA R S') -> nodes ms <> 0%nat -> (N.of_nat (nodes ms) <= 100000)%N -> exists x, ml_solve ROps S' = Ok x /\ residual_norm (sA R S') (sb R S') x < 1 / IZR (10 ^ 7))).
Proof.
  intros A ms pss sigma links es l RD W Ac Ds HR Hs Hd Hl.
  destruct (wired_system sigma ms pss RD links es W Ac Ds) as [Ss [S [FE [FS [ES [VS [LS [DT [_ [_ [_ HQ]]]]]]]]]]].
  destruct (ml_voltages_dirichlet A ms l Hl) as [us [F EV]]. specialize (EV S). exists S, us.
  assert (LB : forall p, In p (combine us (map (fun c => snd (fst c)) l)) -> (fst p < sdim S)%nat).
  { intros [i v] I. cbn [fst]. destruct (F2_combine_in _ _ _ _ _ _ _ _ _ F I) as [c Hc]. rewrite LS. eapply addresses_lt; eauto. }
  destruct (dirichlet_runs _ S VS LB) as [S' E'].
  exists S'. split; auto. split; auto. split; [rewrite EV; auto|].
  assert (KP : valid_system S' /\ sdim S' = sdim S).
  { clear - VS LB E'. revert S VS LB E'. induction (combine us (map (fun c => snd (fst c)) l)) as [|[i v] q IH]; intros S VS LB E'; cbn [dirichlet_all] in E'; [inversion E'; subst; auto|].
    destruct (dDirichlet ROps S i v) as [S1|s|s|s] eqn:E1; cbn [bind] in E'; try discriminate E'. assert (Hi : (i < sdim S)%nat) by (apply (LB (i, v)); cbn; auto).
    destruct (dirichlet_keeps S i v S1 VS Hi E1) as [W1 [L1 _]]. destruct (IH S1 W1) as [Q1 Q2]; auto; [intros p Hp; rewrite L1; apply LB; cbn; auto|]. split; congruence. }
  destruct KP as [V' L']. split; [rewrite L'; auto|]. intros HP.
  assert (FI : map fst (combine us (map (fun c => snd (fst c)) l)) = us).
  { clear - F. induction F as [|c i l us H F IH]; cbn [map combine fst]; [reflexivity|]. rewrite IH. reflexivity. }
  destruct (psd_all _ S S' VS LB E') as [_ [_ [D' P']]].
  { rewrite FI. apply (wired_definite sigma ms pss RD links es Ss S W HR Hs Hd FE LS HQ us HP). }
  assert (SP : spd (sA R S')) by (unfold spd; destruct V' as [_ [C _]]; rewrite C; exact P').
  split; auto. split.
  - intros y z Hy Hz i Hi. destruct (spd_solution S' V' SP) as [x [X UN]]. rewrite (UN y), (UN z); auto; rewrite L', LS; auto.
  - intros FT NZ LE. unfold ml_solve. change (length (sb _ S')) with (sdim S'). apply solve_ok; auto.
    + rewrite L', LS. exact NZ.
    + rewrite L', LS. exact LE.
    + reflexivity.
Qed.
(** up to 92681 nodes the counters of the matrix cannot overflow *)
Definition upper_keys (n : nat) : list N := flat_map (fun j => map (fun i => key i j) (seq 0 (S j))) (seq 0 n).
Lemma upper_length : forall n, (2 * length (upper_keys n) = n * (n + 1))%nat.
Proof.
  intros n. unfold upper_keys. induction n as [|n IH]; [reflexivity|]. rewrite seq_S, flat_map_app, app_length. cbn [flat_map Nat.add]. rewrite app_nil_r, map_length, seq_length. lia.
Qed.
Lemma fits_small : forall V (M : coo V), valid_coo M -> (N.of_nat (cm M) <= 92681)%N -> fits M.
Proof.
  intros V M [ND HK] LE. assert (L : (length (map fst (elems M)) <= length (upper_keys (cm M)))%nat).
  { apply NoDup_incl_length; auto. intros k Hk. apply in_map_iff in Hk. destruct Hk as [[k' v] [Ek Hk]]. cbn [fst] in Ek. subst k'. destruct (HK k v Hk) as [i [j [Hij [Hj ->]]]].
    unfold upper_keys. apply in_flat_map. exists j. split; [apply in_seq; lia|]. apply in_map_iff. exists i. split; auto. apply in_seq. lia. }
  rewrite map_length in L. pose proof (upper_length (cm M)) as U. split; unfold is_u32, two32.
  - lia.
  - assert (N.of_nat (cm M) * (N.of_nat (cm M) + 1) <= 92681 * 92682)%N by (apply N.mul_le_mono; lia). lia.
Qed.
(** ** Row sums *)
Lemma forM_list_app : forall X B (l l' : list X) (f : X -> B -> res B) b, forM_list (l ++ l') f b = (b' <- forM_list l f b ;; forM_list l' f b').
Proof. intros X B l l' f. induction l as [|x l IH]; intros b; cbn [app forM_list]; [reflexivity|]. destruct (f x b); cbn [bind]; auto. Qed.
Lemma suml_app : forall X (l l' : list X) f, suml (l ++ l') f = suml l f + suml l' f.
Proof. intros X l l' f. induction l as [|x l IH]; cbn [app]; [unfold suml at 2; cbn; ring|]. rewrite !suml_cons, IH. ring. Qed.
Lemma conn_rowsum : forall (M M' : coo R) u v r, valid_coo M -> is_u32 (cm M) -> (u < cm M)%nat -> (v < cm M)%nat -> r <> 0 -> u <> v -> conn u v r M = Ok M' ->
  forall a, (a < cm M)%nat -> sumn (cm M) (value 0 M' a) = sumn (cm M) (value 0 M a) - (if (Nat.eqb a u || Nat.eqb a v)%bool then value 0 M u v else 0).
Proof.
  intros M M' u v r W U Hu Hv Hr N E a Ha. destruct (conn_ok M u v r W U Hu Hv Hr) as [M1 [E1 [W1 [C1 [T1 V1]]]]]. rewrite E in E1. inversion E1; subst M1.
  rewrite (sumn_ext (cm M) (value 0 M' a) (fun b => value 0 M a b + 2 / r * lap u v a b + - value 0 M u v * (delta a u * delta b v + delta a v * delta b u))).
  - rewrite !sumn_plus, !sumn_scal, lap_rowsum, sumn_plus, !sumn_scal by auto.
    rewrite (sumn_ext (cm M) (fun i => delta i v) (fun i => delta i v * (fun _ => 1) i)) by (intros; ring). rewrite (sumn_ext (cm M) (fun i => delta i u) (fun i => delta i u * (fun _ => 1) i)) by (intros; ring).
    rewrite !delta_sum by auto. unfold delta. destruct (Nat.eqb_spec a u), (Nat.eqb_spec a v); subst; try congruence; cbn [orb]; ring.
  - intros b Hb. rewrite V1 by auto. unfold on2, lap, delta. rewrite ?(value_sym M v u).
    destruct (Nat.eqb_spec a u), (Nat.eqb_spec b v), (Nat.eqb_spec a v), (Nat.eqb_spec b u); subst; cbn [andb orb]; try congruence; try ring. rewrite (value_sym M v u). ring.
Qed.
Definition shadow (M : coo R) (l : list (nat * nat * R)) (a p : nat) : R :=
  let e := fst (nth p l (0%nat, 0%nat, 0)) in
  if (Nat.eqb a (fst e) || Nat.eqb a (snd e))%bool then match last_link (firstn p l) (fst e) (snd e) with Some r => 2 / r | None => - value 0 M (fst e) (snd e) end else 0.
Definition shadowed (M : coo R) (l : list (nat * nat * R)) (a : nat) : R := suml (seq 0 (length l)) (shadow M l a).
Lemma conns_rowsum : forall l (M M' : coo R), valid_coo M -> is_u32 (cm M) -> bounded_conns (cm M) l -> Forall (fun e => fst (fst e) <> snd (fst e)) l -> conns l M = Ok M' ->
  forall a, (a < cm M)%nat -> sumn (cm M) (value 0 M' a) = sumn (cm M) (value 0 M a) + shadowed M l a.
Proof.
  intros l. induction l as [|[[u v] r] l IH] using rev_ind; intros M M' W U B N E a Ha.
  - inversion E; subst. unfold shadowed, suml. cbn. ring.
  - unfold bounded_conns in B. rewrite Forall_app in B, N. destruct B as [B B1], N as [N N1]. inversion B1 as [|? ? [Hu [Hv Hr]] _]; subst. inversion N1 as [|? ? Nuv _]; subst. cbn [fst snd] in *.
    destruct (conns_values l M W U B N) as [M1 [E1 [W1 [C1 [T1 [V1 D1]]]]]]. unfold conns in E. rewrite forM_list_app in E. fold (conns l M) in E. rewrite E1 in E. cbn [bind forM_list fst snd] in E.
    destruct (conn u v r M1) as [M2|s|s|s] eqn:E2; cbn [bind] in E; try discriminate E. inversion E; subst M2.
    pose proof (conn_rowsum M1 M' u v r W1) as RS. rewrite C1 in RS. rewrite (RS U Hu Hv Hr Nuv E2 a Ha). rewrite (IH M M1 W U B N E1 a Ha).
    unfold shadowed. rewrite app_length. cbn [length]. rewrite Nat.add_1_r, seq_S, suml_app. cbn [Nat.add]. rewrite suml_cons. unfold suml at 3. cbn [fold_right map].
    rewrite (suml_ext _ (seq 0 (length l)) (shadow M (l ++ [(u, v, r)]) a) (shadow M l a)).
    + unfold shadow at 3. rewrite app_nth2 by lia. rewrite Nat.sub_diag. cbn [nth fst snd]. rewrite firstn_app, firstn_all, Nat.sub_diag, firstn_O, app_nil_r. rewrite V1 by auto.
      destruct (Nat.eqb a u || Nat.eqb a v)%bool; [|ring]. destruct (last_link l u v); ring.
    + intros p Hp. apply in_seq in Hp. unfold shadow. rewrite app_nth1 by lia. rewrite firstn_app. replace (p - length l)%nat with 0%nat by lia. rewrite firstn_O, app_nil_r. reflexivity.
Qed.
Lemma combine_nth_es : forall X Y (l : list X) (l' : list Y) p x y, length l = length l' -> nth p (combine l l') (x, y) = (nth p l x, nth p l' y).
Proof. intros. apply combine_nth. auto. Qed.
Lemma links_rowsum : forall A (sigma : A -> R) (ms : list (mesh ROps A)) pss links es, ready_layers ms pss -> wired ms links es -> Forall (fun e : nat * nat => fst e <> snd e) es ->
  exists S0 S, ml_system ROps A sigma finite_R ms [] = Ok S0 /\ ml_system ROps A sigma finite_R ms links = Ok S /\
  forall a, (a < nodes ms)%nat -> sumn (nodes ms) (value 0 (sA R S) a) =
    suml (seq 0 (length links)) (fun p => let e := nth p es (0%nat, 0%nat) in
      if (Nat.eqb a (fst e) || Nat.eqb a (snd e))%bool
      then match last_link (firstn p (combine es (map k_R links))) (fst e) (snd e) with Some r => 2 / r | None => - value 0 (sA R S0) (fst e) (snd e) end else 0).
Proof.
  intros A sigma ms pss links es ready W N. destruct (merged sigma ms pss ready) as [Ss [S0 [E [FS [FP [W0 [L0 [D0 [V0 [B0 ML]]]]]]]]]]. pose proof W0 as [Wc [C0 U0]]. fold (sdim S0) in C0, U0.
  assert (NIL : ml_system ROps A sigma finite_R ms [] = Ok S0) by (rewrite (ML [] [] (wired_nil ms)); cbn; destruct S0; reflexivity).
  pose proof (wired_bounded ms links es W) as WB. pose proof (combine_es ms links es W) as CE.
  assert (N' : Forall (fun e : nat * nat * R => fst (fst e) <> snd (fst e)) (combine es (map k_R links))).
  { rewrite Forall_forall in *. intros [[u v] r] I. cbn [fst snd]. apply (N (u, v)). rewrite <- CE. apply in_map_iff. exists (u, v, r). auto. }
  destruct (conns_values (combine es (map k_R links)) (sA R S0) Wc) as [M' [E' [W' [C' _]]]]; auto; [rewrite C0; auto|rewrite C0, L0; auto|].
  exists S0. eexists. split; [exact NIL|]. rewrite (ML links es W), E'. split; [reflexivity|]. cbn [sA]. intros a Ha.
  pose proof (conns_rowsum (combine es (map k_R links)) (sA R S0) M' Wc) as RS. rewrite C0, L0 in RS. rewrite (RS ltac:(rewrite <- L0; auto) WB N' E' a Ha). clear RS.
  rewrite (sumn_ext (nodes ms) _ (blocks Ss a)) by (intros; apply V0; auto). rewrite (blocks_rowsum A ms Ss FS); auto; [|eapply F2_imp_r; [exact FP|]; intros m S [_ [H _]]; exact H].
  rewrite Rplus_0_l. unfold shadowed. assert (LE : length es = length links) by (destruct W as [F _]; symmetry; eapply F2_length; exact F).
  assert (LC : length es = length (map k_R links)) by (rewrite map_length; exact LE).
  rewrite combine_length. rewrite <- LC, Nat.min_id. rewrite LE. apply suml_ext. intros p Hp. unfold shadow. rewrite combine_nth_es by exact LC. reflexivity.
Qed.
