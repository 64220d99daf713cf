(** Properties C43-C46 and C67.  Vocabulary in LayersSpec.v, model in LayersModel.v. *)
From Coq Require Import String.
From Coq Require Import List Arith ZArith NArith Bool Lia Reals Lra.
From Coq Require Import Floats.SpecFloat.
From Verif Require Import Base SumR AlgebraModel AlgebraSpec SolversModel SolversSpec Solvers_bridge GeometryModel GeometrySpec Geometry_proofs DrawingModel DrawingSpec
  MeshModel MeshSpec MeshGeo_proofs Fem_proofs Energy_proofs LayersModel LayersSpec Voltage_proofs Layers_proofs Wiring_proofs Power_proofs Conductor_proofs Props_Mesh.
Import ListNotations.
Local Open Scope R_scope.

(** ** C43: the nearest node *)
Theorem C43_one_call : forall (A : Type) (m : mesh ROps A) (S : rsys) (p : pt) (v : R), valid_system S -> sdim S = length (m_points m) -> m_points m <> [] ->
  exists i S', closest (m_points m) p i /\ setVoltage ROps A finite_R m S p v = Ok S' /\ valid_system S' /\ sdim S' = sdim S /\
    forall x, solves S' x <-> (x i = v /\ forall j, (j < sdim S)%nat -> j <> i -> row_eq S x j).
Proof.
  intros A m S p v W L NE. destruct (setVoltage_ok A m S p v NE) as [i [C E]]. destruct (Algebra_bridge.dirichlet_solutions_v S i v W) as [S' [E' [W' [L' Sol]]]].
  - rewrite L. eapply closest_lt; eauto.
  - exists i, S'. split; auto. split; [congruence|]. auto.
Qed.
Print Assumptions C43_one_call.
Theorem C43_any_calls : forall (A : Type) (m : mesh ROps A) (S : rsys) (l : list (pt * R)), valid_system S -> sdim S = length (m_points m) -> m_points m <> [] ->
  exists S' ids, voltages m S l = Ok S' /\ valid_system S' /\ sdim S' = sdim S /\ Forall2 (fun c id => closest (m_points m) (fst c) id) l ids /\
    forall x, solves S' x <-> ((forall i v, last_value (combine ids (map snd l)) i = Some v -> x i = v) /\
      forall i, (i < sdim S)%nat -> ~ In i ids -> row_eq S (imposed (combine ids (map snd l)) x) i).
Proof. exact voltages_ok. Qed.
Print Assumptions C43_any_calls.
Theorem C43_any_calls_layers : forall (A : Type) (ms : list (mesh ROps A)) (S : rsys) (l : list (pt * R * nat)), valid_system S -> sdim S = nodes ms ->
  Forall (fun c => exists m, nth_error ms (snd c) = Some m /\ m_points m <> []) l ->
  exists S' us, ml_voltages ms S l = Ok S' /\ valid_system S' /\ sdim S' = sdim S /\ Forall2 (fun c u => addresses ms (fst (fst c)) (snd c) u) l us /\
    forall x, solves S' x <-> ((forall i v, last_value (combine us (map (fun c => snd (fst c)) l)) i = Some v -> x i = v) /\
      forall i, (i < sdim S)%nat -> ~ In i us -> row_eq S (imposed (combine us (map (fun c => snd (fst c)) l)) x) i).
Proof. exact ml_voltages_ok. Qed.
Print Assumptions C43_any_calls_layers.
(** a layer number out of range reads past the end of the list of meshes *)
Theorem C43_unknown_layer : forall (o : Ops) (A : Type) below_inf (ms : list (mesh o A)) (S : dsystem o) p v k, is_ub (ml_setVoltage o A below_inf ms S p v k) \/ (k < length ms)%nat.
Proof.
  intros o A bi ms S p v k. destruct (Nat.ltb_spec k (length ms)) as [H|H]; auto. left. unfold ml_setVoltage, get. assert (nth_error ms k = None) as -> by (apply nth_error_None; auto). eexists. reflexivity.
Qed.
Print Assumptions C43_unknown_layer.
(** binary64: the squares of distances under 2^-538 are zero, those over 2^512 are not below INFINITY *)
Definition f_finite (x : T FOps) : bool := SFltb x (S754_infinity false).
Definition f_pow (k : Z) : f64 := S754_finite false (2 ^ 52)%positive (k - 52).
Definition f_at (k : Z) : vec FOps := @mkV FOps (f_pow k) (S754_zero false).
Definition f_nearest (pts : list (vec FOps)) : option nat :=
  match nearest FOps f_finite (fun q => Ok (sq_dist FOps (@mkV FOps (S754_zero false) (S754_zero false)) q)) pts 0 None with Ok (Some (i, _)) => Some i | _ => None end.
Theorem C43_binary64_refuted : (f_nearest [f_at (-600); f_at (-700)] = Some 0%nat /\ SFltb (f_pow (-700)) (f_pow (-600)) = true) /\ f_nearest [f_at 600; f_at 700] = None.
Proof. vm_compute. repeat split. Qed.
Print Assumptions C43_binary64_refuted.

(** the corner (0,0) of the square is its node 0 *)
Lemma closest_here : forall (pts : list pt) p i, (i < length pts)%nat -> nth i pts org = p -> (forall j, (j < length pts)%nat -> j <> i -> nth j pts org <> p) -> closest pts p i.
Proof.
  intros pts p i Hi E D. assert (Z : dist p (nth i pts org) = 0) by (rewrite E; apply dist_self). split; auto. rewrite Z. split.
  - intros j _. apply dist_nonneg.
  - intros j Hj. assert (N : nth j pts org <> p) by (apply D; lia). destruct (dist_nonneg p (nth j pts org)) as [H|H]; auto. exfalso. apply N. symmetry. apply dist_zero. auto.
Qed.
Lemma sqm_corner : closest (m_points sqm) (P 0 0) 0 /\ closest (m_points sqm) (P 2 2) 2.
Proof.
  split; apply closest_here; try (cbn; lia); try reflexivity; intros j Hj N X; cbn [m_points sqm] in *; cbn [length] in Hj; destruct j as [|[|[|[|j]]]]; try lia; try (apply N; reflexivity);
    cbn [nth] in X; pose proof (f_equal px X) as X1; pose proof (f_equal py X) as X2; rewrite !px_P in X1; rewrite !py_P in X2; lra.
Qed.
Example C43_example : exists S ids, cd_getFemSystem ROps R (fun s => s) sqm = Ok S /\ valid_system S /\ sdim S = length (m_points sqm) /\ m_points sqm <> [] /\
  Forall2 (fun c id => closest (m_points sqm) (fst c) id) [(P 0 0, 1); (P 2 2, 5); (P 0 0, 7)] ids /\ last_value (combine ids [1; 5; 7]) 0 = Some 7 /\ imposed (combine ids [1; 5; 7]) (fun _ => 0) 0%nat = 1.
Proof.
  destruct (cd_energy sqm [3; 5] (fun s => s) (proj1 sqm_ready) (proj2 sqm_ready)) as [S [E [V [L _]]]]. exists S, [0; 2; 0]%nat.
  split; auto. split; auto. split; auto. split; [discriminate|]. split; [|split; reflexivity]. destruct sqm_corner. constructor; [exact H|]. constructor; [exact H0|]. constructor; [exact H|]. constructor.
Qed.

(** ** C44: layers *)
Theorem C44_layers_independent : forall (A : Type) (sigma : A -> R) (ms : list (mesh ROps A)) (pss : list (list A)), ready_layers ms pss -> forall links es, wired ms links es ->
  exists Ss S, Forall2 (fun m Sm => cd_getFemSystem ROps A sigma m = Ok Sm) ms Ss /\
  ml_system ROps A sigma finite_R ms links = Ok S /\ valid_system S /\ sdim S = nodes ms /\ all_diag_touched (sA R S) /\ (forall u, vget (sb R S) u = 0) /\
  forall k l m m' Sk i j, nth_error ms k = Some m -> nth_error ms l = Some m' -> nth_error Ss k = Some Sk -> (i < length (m_points m))%nat -> (j < length (m_points m'))%nat ->
    (forall e, In e es -> e <> (before ms k + i, before ms l + j)%nat /\ e <> (before ms l + j, before ms k + i)%nat /\
       ((before ms k + i = before ms l + j)%nat -> fst e <> (before ms k + i)%nat /\ snd e <> (before ms k + i)%nat)) ->
    value 0 (sA R S) (before ms k + i) (before ms l + j) = if Nat.eqb k l then value 0 (sA R Sk) i j else 0.
Proof. intros A sigma. exact (layers_independent sigma). Qed.
Print Assumptions C44_layers_independent.
Theorem C44_one_unknown_per_node : forall (A : Type) (ms : list (mesh ROps A)),
  (forall k m i, nth_error ms k = Some m -> (i < length (m_points m))%nat -> (before ms k + i < nodes ms)%nat) /\
  (forall k l m m' i j, nth_error ms k = Some m -> nth_error ms l = Some m' -> (i < length (m_points m))%nat -> (j < length (m_points m'))%nat -> (before ms k + i = before ms l + j)%nat -> k = l /\ i = j) /\
  (forall u, (u < nodes ms)%nat -> exists k m i, nth_error ms k = Some m /\ (i < length (m_points m))%nat /\ u = (before ms k + i)%nat).
Proof. intros A ms. split; [intros; eapply before_lt; eauto|]. split; [apply node_unique|apply node_exists]. Qed.
Print Assumptions C44_one_unknown_per_node.
(** the constructor takes exactly one depth per layer, keeps them in order, and refuses everything else *)
Theorem C44_depths : forall X (n : nat) (ds : list X),
  (length ds = n -> layer_depths n ds = Ok ds) /\ (length ds <> n -> is_throw (layer_depths n ds)).
Proof.
  intros X n ds. unfold layer_depths. split; intros H; [rewrite H, Nat.eqb_refl; auto|]. apply Nat.eqb_neq in H. rewrite H. eexists. reflexivity.
Qed.
Print Assumptions C44_depths.
Example C44_depths_met : length [1; 2] = 2%nat /\ length [1; 2] <> 3%nat.
Proof. split; [reflexivity|discriminate]. Qed.
(** two copies of the square joined at their corners (0,0) *)
Definition via (r : R) : link ROps := @mkLink ROps (P 0 0) (P 0 0) 0 1 r.
Lemma two_ready : ready_layers [sqm; sqm] [[3; 5]; [3; 5]].
Proof. destruct sqm_ready. split; [constructor; [auto|constructor; [auto|constructor]]|]. split; [constructor; [auto|constructor; [auto|constructor]]|]. unfold is_u32, nodes. cbn. lia. Qed.
Lemma via_joins : forall r, joins [sqm; sqm] (via r) 0 4.
Proof. intros r. destruct sqm_corner. split; cbn [via k_p1 k_p2 k_layer1 k_layer2]; [exists sqm, 0%nat|exists sqm, 0%nat]; auto. Qed.
Lemma via_wired : forall r, r <> 0 -> wired [sqm; sqm] [via r] [(0, 4)%nat].
Proof. intros r H. split; (constructor; [|constructor]); auto. apply via_joins. Qed.
Example C44_example : ready_layers [sqm; sqm] [[3; 5]; [3; 5]] /\ wired [sqm; sqm] [via (1 / 2)] [(0, 4)%nat] /\ nodes [sqm; sqm] = 8%nat /\ before [sqm; sqm] 1 = 4%nat.
Proof. split; [exact two_ready|]. split; [apply via_wired; lra|]. split; reflexivity. Qed.

(** ** C45: interconnections *)
(** between different layers and different pairs of nodes: zero row sums, and each adds 2/R (x_u - x_v)^2 to the power *)
Theorem C45_conservation_partial : forall (A : Type) (sigma : A -> R) (ms : list (mesh ROps A)) (pss : list (list A)), ready_layers ms pss ->
  forall links es, wired ms links es -> across links -> distinct es -> exists Ss S, Forall2 (fun m Sm => cd_getFemSystem ROps A sigma m = Ok Sm) ms Ss /\
  ml_system ROps A sigma finite_R ms links = Ok S /\ valid_system S /\ sdim S = nodes ms /\
  (forall u, (u < nodes ms)%nat -> sumn (nodes ms) (value 0 (sA R S) u) = 0) /\
  (forall x, quad (nodes ms) (value 0 (sA R S)) x = layers_energy ms Ss x + links_energy (fun r => 2 / r) links es x).
Proof.
  intros A sigma ms pss RD links es W Ac Ds. destruct (wired_system sigma ms pss RD links es W Ac Ds) as [Ss [S [FE [FS [ES [VS [LS [DT [_ [_ [RS HQ]]]]]]]]]]].
  exists Ss, S. repeat (split; [solve [auto]|]). auto.
Qed.
Print Assumptions C45_conservation_partial.
(** any list of interconnections of different nodes: all entries *)
Theorem C45_entries : forall (A : Type) (sigma : A -> R) (ms : list (mesh ROps A)) (pss : list (list A)), ready_layers ms pss ->
  forall links es, wired ms links es -> Forall (fun e : nat * nat => fst e <> snd e) es ->
  exists Ss S, Forall2 (fun m Sm => cd_getFemSystem ROps A sigma m = Ok Sm) ms Ss /\
  ml_system ROps A sigma finite_R ms links = Ok S /\ valid_system S /\ sdim S = nodes ms /\ all_diag_touched (sA R S) /\ (forall u, vget (sb R S) u = 0) /\
  forall k l m m' Sk i j, nth_error ms k = Some m -> nth_error ms l = Some m' -> nth_error Ss k = Some Sk -> (i < length (m_points m))%nat -> (j < length (m_points m'))%nat ->
    let own := if Nat.eqb k l then value 0 (sA R Sk) i j else 0 in
    let a := (before ms k + i)%nat in let b := (before ms l + j)%nat in
    value 0 (sA R S) a b = if Nat.eqb a b then own + at_node (combine es (map k_R links)) a
                           else match last_link (combine es (map k_R links)) a b with Some r => - (2 / r) | None => own end.
Proof. intros A sigma. exact (any_links sigma). Qed.
Print Assumptions C45_entries.
(** and the row sums: an interconnection after another one between the same nodes, or between neighbours in a layer, leaves an excess *)
Theorem C45_row_sums : forall (A : Type) (sigma : A -> R) (ms : list (mesh ROps A)) (pss : list (list A)) links es, ready_layers ms pss -> wired ms links es -> Forall (fun e : nat * nat => fst e <> snd e) es ->
  exists S0 S, ml_system ROps A sigma finite_R ms [] = Ok S0 /\ ml_system ROps A sigma finite_R ms links = Ok S /\
  forall a, (a < nodes ms)%nat -> sumn (nodes ms) (value 0 (sA R S) a) =
    suml (seq 0 (length links)) (fun p => let e := nth p es (0%nat, 0%nat) in
      if (Nat.eqb a (fst e) || Nat.eqb a (snd e))%bool
      then match last_link (firstn p (combine es (map k_R links))) (fst e) (snd e) with Some r => 2 / r | None => - value 0 (sA R S0) (fst e) (snd e) end else 0).
Proof. exact links_rowsum. Qed.
Print Assumptions C45_row_sums.
Theorem C45_self_interconnection : forall (A : Type) (sigma : A -> R) (ms : list (mesh ROps A)) (pss : list (list A)), ready_layers ms pss -> forall k u, wired ms [k] [(u, u)] ->
  exists S, ml_system ROps A sigma finite_R ms [k] = Ok S /\ sdim S = nodes ms /\ (u < nodes ms)%nat /\ value 0 (sA R S) u u = - (2 / k_R k).
Proof. intros A sigma. exact (self_link sigma). Qed.
Print Assumptions C45_self_interconnection.
(** the conductance is 2/R instead of 1/R; two interconnections between the same nodes do not conserve current;
    one that joins a node with itself makes the diagonal negative *)
Theorem C45_refuted :
  (exists (ms : list (mesh ROps R)) pss k S, ready_layers ms pss /\ wired ms [k] [(0, 4)%nat] /\ ml_system ROps R (fun s => s) finite_R ms [k] = Ok S /\ value 0 (sA R S) 0 4 <> - (1 / k_R k)) /\
  (exists (ms : list (mesh ROps R)) pss k k' S, ready_layers ms pss /\ wired ms [k; k'] [(0, 4); (0, 4)]%nat /\ ml_system ROps R (fun s => s) finite_R ms [k; k'] = Ok S /\
     sumn (nodes ms) (value 0 (sA R S) 0) <> 0) /\
  (exists (ms : list (mesh ROps R)) pss k S, ready_layers ms pss /\ wired ms [k] [(0, 0)%nat] /\ 0 < k_R k /\ ml_system ROps R (fun s => s) finite_R ms [k] = Ok S /\ value 0 (sA R S) 0 0 < 0).
Proof.
  split; [|split].
  - assert (W : wired [sqm; sqm] [via 1] [(0, 4)%nat]) by (apply via_wired; lra).
    destruct (any_links (fun s => s) [sqm; sqm] _ two_ready [via 1] _ W) as [Ss [S [FE [E [_ [_ [_ [_ V]]]]]]]]; [repeat constructor; cbn; lia|].
    exists [sqm; sqm], [[3; 5]; [3; 5]], (via 1), S. split; [exact two_ready|]. split; auto. split; auto.
    destruct Ss as [|S1 Ss]; [inversion FE|]. specialize (V 0%nat 1%nat sqm sqm S1 0%nat 0%nat eq_refl eq_refl eq_refl ltac:(cbn; lia) ltac:(cbn; lia)). cbn in V. cbn [via k_R]. change (T ROps) with R in *. rewrite V. lra.
  - assert (W : wired [sqm; sqm] [via 1; via 1] [(0, 4); (0, 4)]%nat) by (split; (constructor; [|constructor; [|constructor]]); try apply via_joins; cbn; lra).
    destruct (links_rowsum R (fun s => s) [sqm; sqm] _ _ _ two_ready W) as [S0 [S [E0 [E V]]]]; [repeat constructor; cbn; lia|].
    exists [sqm; sqm], [[3; 5]; [3; 5]], (via 1), (via 1), S. split; [exact two_ready|]. split; auto. split; auto. rewrite V by (cbn; lia).
    destruct (any_links (fun s => s) [sqm; sqm] _ two_ready [] [] (wired_nil _)) as [Ss [S0' [FE [E0' [_ [_ [_ [_ V0]]]]]]]]; [constructor|]. rewrite E0 in E0'. inversion E0'; subst S0'.
    destruct Ss as [|S1 Ss]; [inversion FE|]. specialize (V0 0%nat 1%nat sqm sqm S1 0%nat 0%nat eq_refl eq_refl eq_refl ltac:(cbn; lia) ltac:(cbn; lia)). cbn in V0.
    cbn. change (T ROps) with R in *. rewrite V0. lra.
  - assert (W : wired [sqm] [@mkLink ROps (P 0 0) (P 0 0) 0 0 1] [(0, 0)%nat]).
    { split; (constructor; [|constructor]); [|cbn; lra]. split; exists sqm, 0%nat; destruct sqm_corner; auto. }
    assert (RD : ready_layers [sqm] [[3; 5]]) by (destruct sqm_ready; split; [constructor; [auto|constructor]|]; split; [constructor; [auto|constructor]|]; unfold is_u32, nodes; cbn; lia).
    destruct (self_link (fun s => s) [sqm] _ RD _ _ W) as [S [E [_ [_ V]]]]. exists [sqm], [[3; 5]], (@mkLink ROps (P 0 0) (P 0 0) 0 0 1), S.
    split; auto. split; auto. cbn [k_R] in *. split; [lra|]. split; auto. change (T ROps) with R in *. rewrite V. lra.
Qed.
Print Assumptions C45_refuted.
Example C45_example : ready_layers [sqm; sqm] [[3; 5]; [3; 5]] /\ wired [sqm; sqm] [via (1 / 2)] [(0, 4)%nat] /\ across [via (1 / 2)] /\ distinct [(0, 4)%nat].
Proof. split; [exact two_ready|]. split; [apply via_wired; lra|]. split; repeat constructor; cbn; lia. Qed.

(** ** C46: power density *)
Theorem C46_power : forall (A : Type) (sigma : A -> R) (ms : list (mesh ROps A)) pss (V : list R), Forall2 fem_ready ms pss -> (nodes ms <= length V)%nat ->
  exists Pw, computePowerDensity ROps A sigma ms V = Ok Pw /\ length Pw = triangles ms /\
    forall k m ps, nth_error ms k = Some m -> nth_error pss k = Some ps ->
      let Pk := firstn (length (m_tris m)) (skipn (triangles (firstn k ms)) Pw) in
      exists gs, Forall2 (gradient_of m (fun i => vget V (before ms k + i))) (m_tris m) gs /\
        (forall j p g, nth_error ps j = Some p -> nth_error gs j = Some g -> vget Pk j = sigma p * norm2 g) /\
        ((forall p, In p ps -> 0 <= sigma p) -> forall w : R, In w Pk -> 0 <= w) /\
        (all_used m -> forall S, cd_getFemSystem ROps A sigma m = Ok S ->
           m_depth m * sum_tris m Pk (fun t (w : R) => w * tri_area m t) = quad (sdim S) (value 0 (sA R S)) (fun i => vget V (before ms k + i))).
Proof. intros A sigma. exact (power_ok sigma). Qed.
Print Assumptions C46_power.
(** a vector shorter than the number of nodes is read past its end *)
Theorem C46_short_vector : forall (A : Type) (sigma : A -> R) (ms : list (mesh ROps A)) pss (V : list R), Forall2 fem_ready ms pss -> (length V < nodes ms)%nat -> is_ub (computePowerDensity ROps A sigma ms V).
Proof. intros A sigma. exact (power_short sigma). Qed.
Print Assumptions C46_short_vector.
Example C46_example : Forall2 fem_ready [sqm; sqm] [[3; 5]; [3; 5]] /\ (nodes [sqm; sqm] <= length [0; 2; 4; 2; 0; 0; 0; 1])%nat /\ gradient_of sqm (fun i => vget [0; 2; 4; 2; 0; 0; 0; 1] (before [sqm; sqm] 0 + i)) (0, 1, 2)%nat (P 1 1).
Proof.
  split; [apply two_ready|]. split; [cbn; lia|]. split; unfold pos, t0, t1, t2, before, vget; cbn [fst snd m_points sqm nth firstn nodes map list_sum fold_right Nat.add]; rewrite !px_P, !py_P; cbn; lra.
Qed.

(** ** C67: from the mesh to the voltages *)
Theorem C67_conductor : forall (A : Type) (m : mesh ROps A) ps (sigma : A -> R) (l : list (pt * R)), fem_ready m ps -> all_used m -> (forall p, In p ps -> 0 < sigma p) -> 0 < m_depth m -> m_points m <> [] ->
  exists S ids S', cd_getFemSystem ROps A sigma m = Ok S /\ Forall2 (fun c id => closest (m_points m) (fst c) id) l ids /\ voltages m S l = Ok S' /\ sdim S' = length (m_points m) /\
    (pins m ids -> spd (sA R S') /\ (forall y z, solves S' y -> solves S' z -> forall i, (i < length (m_points m))%nat -> y i = z i) /\
       (fits (sA R S') -> (N.of_nat (length (m_points m)) <= 100000)%N -> exists x, cd_solve ROps A m S' = Ok x /\ residual_norm (sA R S') (sb R S') x < 1 / IZR (10 ^ 12))).
Proof. exact conductor_run. Qed.
Print Assumptions C67_conductor.
Theorem C67_layers : forall (A : Type) (ms : list (mesh ROps A)) pss (sigma : A -> R) links es (l : list (pt * R * nat)), ready_layers ms pss -> wired ms links es -> across links -> distinct es ->
  Forall (fun k : link ROps => 0 < k_R k) links -> (forall ps p, In ps pss -> In p ps -> 0 < sigma p) -> Forall (fun m : mesh ROps A => 0 < m_depth m) ms ->
  Forall (fun c : pt * R * nat => exists m, nth_error ms (snd c) = Some m /\ m_points m <> []) l ->
  exists S us S', ml_system ROps A sigma finite_R ms links = Ok S /\ Forall2 (fun c u => addresses ms (fst (fst c)) (snd c) u) l us /\ ml_voltages ms S l = Ok S' /\ sdim S' = nodes ms /\
    ((forall v, (v < nodes ms)%nat -> exists u, In u us /\ wired_to ms es u v) -> spd (sA R S') /\
       (forall y z, solves S' y -> solves S' z -> forall i, (i < nodes ms)%nat -> y i = z i) /\
       (fits (sA R S') -> nodes ms <> 0%nat -> (N.of_nat (nodes ms) <= 100000)%N -> exists x, ml_solve ROps S' = Ok x /\ residual_norm (sA R S') (sb R S') x < 1 / IZR (10 ^ 7))).
Proof. exact layers_run. Qed.
Print Assumptions C67_layers.
Theorem C67_fits : forall (V : Type) (M : coo V), valid_coo M -> (N.of_nat (cm M) <= 92681)%N -> fits M.
Proof. exact fits_small. Qed.
Print Assumptions C67_fits.
Example C67_example : pins sqm [0; 2; 0]%nat /\ (forall p, In p [3; 5] -> 0 < p) /\ 0 < m_depth sqm /\
  (forall v, (v < nodes [sqm; sqm])%nat -> exists u, In u [0]%nat /\ wired_to [sqm; sqm] [(0, 4)%nat] u v) /\ Forall (fun k : link ROps => 0 < k_R k) [via (1 / 2)].
Proof.
  destruct C59_example as [_ [_ [PN _]]]. cbn [map fst] in PN.
  assert (L : forall v, (v < 4)%nat -> linked sqm 0 v).
  { intros v Hv. destruct (Nat.eq_dec v 3) as [->|N].
    - apply (linked_step sqm 0 0 3 (0, 2, 3)%nat); unfold corners, t0, t1, t2; cbn; auto. constructor.
    - apply (linked_step sqm 0 0 v (0, 1, 2)%nat); unfold corners, t0, t1, t2; cbn; auto; [constructor|]. lia. }
  split; [intros v Hv; exists 0%nat; split; [cbn; auto|apply L; exact Hv]|]. split; [intros p [<-|[<-|[]]]; lra|]. split; [cbn; lra|]. split; [|repeat constructor; cbn; lra].
  intros v Hv. exists 0%nat. split; [cbn; auto|]. cbn in Hv.
  destruct (lt_dec v 4) as [H|H].
  - apply (wt_tri [sqm; sqm] [(0, 4)%nat] 0 0 sqm 0 v); [constructor|reflexivity|apply L; auto].
  - assert (E : v = (before [sqm; sqm] 1 + (v - 4))%nat) by (cbn; lia). rewrite E. apply (wt_tri [sqm; sqm] [(0, 4)%nat] 0 1 sqm 0 (v - 4)); [|reflexivity|apply L; lia].
    apply (wt_link _ _ 0 0 4); [constructor|cbn; auto].
Qed.
