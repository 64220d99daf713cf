(** Properties C95-C98: the physics of the voltages of several layers.  Vocabulary in StackSpec.v, model in LayersModel.v. *)
From Coq Require Import String.
From Coq Require Import List Arith ZArith NArith Bool Lia Reals Lra.
From Verif Require Import Base SumR AlgebraModel AlgebraSpec Algebra_bridge GeometryModel GeometrySpec Geometry_proofs DrawingModel DrawingSpec
  MeshModel MeshSpec Adjacency_proofs Fem_proofs Energy_proofs LayersModel LayersSpec Voltage_proofs Layers_proofs Wiring_proofs Conductor_proofs CotSpec Cot_proofs PhysSpec Phys_proofs StackSpec Stack_proofs
  Props_Mesh Props_Cot Props_Phys Props_Layers.
Import ListNotations.
Local Open Scope R_scope.

(** ** C95: superposition and scale *)
(** for any interconnections, also several between the same nodes *)
Theorem C95_superposition : forall A (sigma : A -> R) ms pss links es (l : list (pt * (R * R) * nat)) us x y a b, ready_layers ms pss -> wired ms links es ->
  stack_held ms (map (fun c => (fst (fst c), fst (snd (fst c)), snd c)) l) us ->
  stack_settled sigma ms links (map (fun c => (fst (fst c), fst (snd (fst c)), snd c)) l) x -> stack_settled sigma ms links (map (fun c => (fst (fst c), snd (snd (fst c)), snd c)) l) y ->
  stack_settled sigma ms links (map (fun c => (fst (fst c), a * fst (snd (fst c)) + b * snd (snd (fst c)), snd c)) l) (fun v => a * x v + b * y v).
Proof.
  intros A sigma ms pss links es l us x y a b RD W Hh Sx Sy.
  assert (Hv : forall h : pt * (R * R) * nat -> R, stack_held ms (map (fun c => (fst (fst c), h c, snd c)) l) us) by (intros h; eapply stack_held_vals; [exact Hh|]; rewrite !map_map; reflexivity).
  destruct (layers_independent sigma ms pss RD links es W) as [Ss [S [_ [ES [VS [LS [_ [VB _]]]]]]]].
  apply (stack_any A sigma ms links _ us x S (Hv (fun c => fst (snd (fst c)))) ES VS LS VB) in Sx. apply (stack_any A sigma ms links _ us y S (Hv (fun c => snd (snd (fst c)))) ES VS LS VB) in Sy.
  apply (stack_any A sigma ms links _ us _ S (Hv (fun c => a * fst (snd (fst c)) + b * snd (snd (fst c)))) ES VS LS VB). destruct Sx as [X1 X2], Sy as [Y1 Y2]. split.
  - rewrite map_map in *. cbn [fst snd] in *. clear - X1 Y1. revert us X1 Y1. induction l as [|c l IH]; intros [|u us] X1 Y1 i v I; try destruct I as []; cbn [map combine] in *.
    + injection H as <- <-. rewrite (X1 u (fst (snd (fst c)))), (Y1 u (snd (snd (fst c)))) by (left; auto). reflexivity.
    + apply (IH us); auto; intros; [apply X1|apply Y1]; right; auto.
  - intros i Hi NI. rewrite act_lin, X2, Y2 by auto. ring.
Qed.
Print Assumptions C95_superposition.
(** conductivities k times as large and resistances k times as small change no voltage *)
Theorem C95_scale : forall A (sigma : A -> R) ms pss links es l us x k, ready_layers ms pss -> laid ms links es -> stack_held ms l us -> k <> 0 ->
  (stack_settled (fun p => k * sigma p) ms (map (rescaled (/ k)) links) l x <-> stack_settled sigma ms links l x).
Proof.
  intros A sigma ms pss links es l us x k RD La Hh Hk.
  assert (La' : laid ms (map (rescaled (/ k)) links) es).
  { destruct La as [[WJ WR] [Ac Ds]]. split; [split|split; auto].
    - clear - WJ. induction WJ as [|q e links es J WJ IH]; cbn; constructor; auto.
    - clear - WR Hk. induction WR as [|q links H WR IH]; cbn [map]; constructor; auto. cbn [rescaled k_R]. apply Rmult_integral_contrapositive_currified; auto. apply Rinv_neq_0_compat; auto.
    - clear - Ac. unfold across in *. induction Ac as [|q links H Ac IH]; cbn [map]; constructor; auto. }
  rewrite (stack_iff A (fun p => k * sigma p) ms pss _ es l us x RD La' Hh), (stack_iff A sigma ms pss links es l us x RD La Hh).
  assert (E : forall a b, Kw (fun p => k * sigma p) ms pss twice (map (rescaled (/ k)) links) es a b = k * Kw sigma ms pss twice links es a b).
  { intros a b. unfold Kw. rewrite Rmult_plus_distr_l. f_equal.
    - clear - Hk. revert pss a b. induction ms as [|m ms IH]; intros [|ps pss] a b; cbn [KL]; cbv zeta; try ring. destruct (Nat.ltb a _), (Nat.ltb b _); try ring; auto.
      unfold Kc. rewrite <- suml_scal. apply suml_ext. intros. ring.
    - destruct La as [[_ WR] _]. rewrite <- suml_scal. rewrite map_map. clear - WR Hk. revert es. induction WR as [|q links H WR IH]; intros [|e es]; try reflexivity. cbn [map combine]. rewrite !suml_cons, IH. f_equal.
      cbn [fst snd rescaled k_R]. unfold twice. change (T ROps) with R in *. field. auto. }
  unfold hangs. assert (EA : forall i, act (nodes ms) (Kw (fun p => k * sigma p) ms pss twice (map (rescaled (/ k)) links) es) x i = k * act (nodes ms) (Kw sigma ms pss twice links es) x i).
  { intros i. rewrite <- act_scale_K. apply act_ext_K. intros; apply E. }
  split; intros [H1 H2]; split; auto; intros i Hi NI; specialize (H2 i Hi NI); rewrite EA in *.
  - apply Rmult_integral in H2. destruct H2; auto. contradiction.
  - rewrite H2. ring.
Qed.
Print Assumptions C95_scale.

(** ** C96: no voltage beyond those imposed *)
Lemma stack_max : forall A (sigma : A -> R) ms pss links es l us x hi, ready_layers ms pss -> laid ms links es -> Forall (fun k : link ROps => 0 < k_R k) links -> (forall ps p, In ps pss -> In p ps -> 0 < sigma p) ->
  Forall (fun m : mesh ROps A => 0 < m_depth m) ms -> stack_held ms l us -> grounded ms es us -> (forall k m ps, nth_error ms k = Some m -> nth_error pss k = Some ps -> cotangents_nonneg sigma m ps) ->
  (forall c, In c l -> snd (fst c) <= hi) -> stack_settled sigma ms links l x -> forall i, (i < nodes ms)%nat -> x i <= hi.
Proof.
  intros A sigma ms pss links es l us x hi RD La HR Hs Hd Hh Gr Ct Hi Sx. apply (stack_iff A sigma ms pss links es l us x RD La Hh) in Sx. destruct Sx as [H1 H2].
  apply (quad_max (nodes ms) (Kw sigma ms pss twice links es)) with (ids := us); auto.
  - apply Kw_sym.
  - intros i Hn. apply Kw_rows; auto. apply La.
  - intros i j _ _ N. apply Kw_off; auto; [|eapply laid_apart; eauto]. intros k m ps Hk Hp. split; [|eapply Ct; eauto]. rewrite Forall_forall in Hd. left. apply Hd. eapply nth_error_In; eauto.
  - intros i I. destruct (hung_call A ms l us i Hh I) as [c [I1 I2]]. rewrite (H1 _ _ I2). auto.
  - apply Kw_definite; auto.
Qed.
Theorem C96_between : forall A (sigma : A -> R) ms pss links es l us x lo hi, ready_layers ms pss -> laid ms links es -> Forall (fun k : link ROps => 0 < k_R k) links -> (forall ps p, In ps pss -> In p ps -> 0 < sigma p) ->
  Forall (fun m : mesh ROps A => 0 < m_depth m) ms -> stack_held ms l us -> grounded ms es us -> (forall k m ps, nth_error ms k = Some m -> nth_error pss k = Some ps -> cotangents_nonneg sigma m ps) ->
  (forall c, In c l -> lo <= snd (fst c) <= hi) -> stack_settled sigma ms links l x -> forall i, (i < nodes ms)%nat -> lo <= x i <= hi.
Proof.
  intros A sigma ms pss links es l us x lo hi RD La HR Hs Hd Hh Gr Ct Hb Sx i Hi. split; [|eapply stack_max; eauto; intros; apply Hb; auto].
  set (l' := map (fun c : pt * R * nat => (fst (fst c), (snd (fst c), snd (fst c)), snd c)) l).
  assert (E : map (fun c : pt * (R * R) * nat => (fst (fst c), fst (snd (fst c)), snd c)) l' = l) by (unfold l'; rewrite map_map; cbn [fst snd]; rewrite <- (map_id l) at 2; apply map_ext; intros [[] ]; auto).
  assert (E' : map (fun c : pt * (R * R) * nat => (fst (fst c), snd (snd (fst c)), snd c)) l' = l) by (unfold l'; rewrite map_map; cbn [fst snd]; rewrite <- (map_id l) at 2; apply map_ext; intros [[] ]; auto).
  assert (S0 := C95_superposition A sigma ms pss links es l' us x x (-1) 0 RD (proj1 La)). rewrite E, E' in S0. specialize (S0 Hh Sx Sx).
  assert (- 1 * x i + 0 * x i <= - lo); [|lra].
  refine (stack_max A sigma ms pss links es _ us _ (- lo) RD La HR Hs Hd _ Gr Ct _ S0 i Hi).
  - eapply stack_held_vals; [exact Hh|]. unfold l'. rewrite !map_map. reflexivity.
  - intros c Ic. unfold l' in Ic. rewrite map_map in Ic. apply in_map_iff in Ic. destruct Ic as [c' [<- Ic]]. cbn [fst snd]. specialize (Hb c' Ic). lra.
Qed.
Print Assumptions C96_between.
Theorem C96_acute : forall A (sigma : A -> R) ms pss links es l us x lo hi, ready_layers ms pss -> laid ms links es -> Forall (fun k : link ROps => 0 < k_R k) links -> (forall ps p, In ps pss -> In p ps -> 0 < sigma p) ->
  Forall (fun m : mesh ROps A => 0 < m_depth m) ms -> stack_held ms l us -> grounded ms es us -> Forall never_obtuse ms ->
  (forall c, In c l -> lo <= snd (fst c) <= hi) -> stack_settled sigma ms links l x -> forall i, (i < nodes ms)%nat -> lo <= x i <= hi.
Proof.
  intros A sigma ms pss links es l us x lo hi RD La HR Hs Hd Hh Gr NO Hb Sx. eapply C96_between; eauto. intros k m ps Hk Hp. destruct RD as [F _]. destruct (F2_nth _ _ _ _ _ F _ _ Hk) as [ps' [Hp' Rd]].
  rewrite Hp in Hp'. injection Hp' as <-. rewrite Forall_forall in NO. apply acute_cotangents; auto; [apply NO; eapply nth_error_In; eauto|]. intros p I. left. apply (Hs ps); auto. eapply nth_error_In; eauto.
Qed.
Print Assumptions C96_acute.

(** ** C97: power and currents; an interconnection of resistance r counts as the conductance 2/r *)
Lemma hung_same : forall A (ms : list (mesh ROps A)) l us (x y : nat -> R) K K' n, stack_held ms l us -> hangs n K us (map (fun c => snd (fst c)) l) x -> hangs n K' us (map (fun c => snd (fst c)) l) y -> forall i, In i us -> y i = x i.
Proof. intros A ms l us x y K K' n Hh [X1 _] [Y1 _] i I. destruct (hung_call A ms l us i Hh I) as [q [_ I2]]. rewrite (X1 _ _ I2), (Y1 _ _ I2). reflexivity. Qed.
Theorem C97_least : forall A (sigma : A -> R) ms pss links es l us x y w w', ready_layers ms pss -> laid ms links es -> Forall (fun k : link ROps => 0 < k_R k) links -> (forall ps p, In ps pss -> In p ps -> 0 < sigma p) ->
  Forall (fun m : mesh ROps A => 0 < m_depth m) ms -> stack_held ms l us -> grounded ms es us -> stack_settled sigma ms links l x -> Forall2 (fun c u => y u = snd (fst c)) l us ->
  stack_power sigma ms pss (fun r => 2 / r) links es x w -> stack_power sigma ms pss (fun r => 2 / r) links es y w' ->
  w <= w' /\ (w' <= w -> forall i, (i < nodes ms)%nat -> y i = x i).
Proof.
  intros A sigma ms pss links es l us x y w w' RD La HR Hs Hd Hh Gr Sx Vy Dx Dy. pose proof (proj1 La) as W. change (fun r => 2 / r) with twice in *. apply power_quad in Dx; auto. apply power_quad in Dy; auto. subst w w'.
  apply (stack_iff A sigma ms pss links es l us x RD La Hh) in Sx. destruct Sx as [X1 X2].
  assert (Ey : forall i, In i us -> y i = x i).
  { intros i I. destruct (hung_call A ms l us i Hh I) as [q [_ I2]]. rewrite (X1 _ _ I2). clear - Vy I2. induction Vy as [|c u l us E F IH]; [destruct I2|].
    cbn [map combine] in I2. destruct I2 as [E2|I2]; [injection E2 as <- <-; auto|apply IH; auto]. }
  set (K := Kw sigma ms pss twice links es) in *.
  rewrite (quad_least (nodes ms) K (Kw_sym A sigma ms pss twice links es) us x y X2 Ey).
  assert (D := Kw_definite A sigma ms pss links es us RD La HR Hs Hd Gr (fun v => y v - x v) (fun j I => ltac:(cbn beta; rewrite Ey by auto; ring))). fold K in D.
  assert (P0 : 0 <= quad (nodes ms) K (fun v => y v - x v)).
  { unfold K. rewrite Kw_quad by auto. pose proof (links_nonneg links es (fun v => y v - x v) HR). destruct RD as [F _]. assert (0 <= quad (nodes ms) (KL sigma ms pss) (fun v => y v - x v)); [|lra].
    apply KL_nonneg; auto; [intros; left; eauto|]. eapply Forall_impl; [|exact Hd]. intros; left; auto. }
  split; [lra|]. intros L i Hi. destruct (Req_dec (y i - x i) 0) as [Z|Z]; [lra|]. exfalso. specialize (D (ex_intro _ i (conj Hi Z))). lra.
Qed.
Print Assumptions C97_least.
(** raising conductivities and lowering resistances, or adding interconnections, never lowers the power for the same voltages *)
Theorem C97_raise : forall A (s1 s2 : A -> R) ms pss links links' more es es' l us x y w w', ready_layers ms pss -> laid ms links es -> laid ms (links' ++ more) (es ++ es') -> length links' = length es ->
  Forall2 (fun k k' : link ROps => 0 < k_R k' <= k_R k) links links' -> Forall (fun k : link ROps => 0 < k_R k) more -> (forall ps p, In ps pss -> In p ps -> 0 <= s1 p <= s2 p) ->
  Forall (fun m : mesh ROps A => 0 <= m_depth m) ms -> stack_held ms l us -> stack_settled s1 ms links l x -> stack_settled s2 ms (links' ++ more) l y ->
  stack_power s1 ms pss (fun r => 2 / r) links es x w -> stack_power s2 ms pss (fun r => 2 / r) (links' ++ more) (es ++ es') y w' -> w <= w'.
Proof.
  intros A s1 s2 ms pss links links' more es es' l us x y w w' RD La La' LL HL HM Hs Hd Hh Sx Sy Dx Dy. change (fun r => 2 / r) with twice in *. apply power_quad in Dx; auto; [|apply La]. apply power_quad in Dy; auto; [|apply La']. subst w w'.
  apply (stack_iff A s1 ms pss links es l us x RD La Hh) in Sx. apply (stack_iff A s2 ms pss _ _ l us y RD La' Hh) in Sy. pose proof (hung_same A ms l us x y _ _ _ Hh Sx Sy) as Ey. destruct Sx as [X1 X2].
  set (K := Kw s1 ms pss twice links es) in *. assert (HR : Forall (fun k : link ROps => 0 < k_R k) links) by (clear - HL; induction HL; constructor; auto; lra).
  apply Rle_trans with (quad (nodes ms) K y).
  - rewrite (quad_least (nodes ms) K (Kw_sym A s1 ms pss twice links es) us x y X2 Ey).
    assert (P0 : 0 <= quad (nodes ms) K (fun v => y v - x v)); [|lra]. unfold K. rewrite Kw_quad by apply La. pose proof (links_nonneg links es (fun v => y v - x v) HR). destruct RD as [F _].
    assert (0 <= quad (nodes ms) (KL s1 ms pss) (fun v => y v - x v)); [|lra]. apply KL_nonneg; auto. intros; eapply Hs; eauto.
  - unfold K. rewrite Kw_quad by apply La. rewrite Kw_quad by apply La'. apply Rplus_le_compat; [apply KL_mono; auto; [apply RD|intros; eapply Hs; eauto]|].
    unfold links_energy. assert (CA : forall X Y (l1 l2 : list X) (m1 m2 : list Y), length l1 = length m1 -> combine (l1 ++ l2) (m1 ++ m2) = combine l1 m1 ++ combine l2 m2).
    { clear. intros X Y l1. induction l1 as [|a l1 IH]; intros l2 [|b m1] m2 E; try discriminate E; cbn; auto. f_equal. apply IH. auto. }
    rewrite CA by auto. rewrite suml_app. pose proof (links_nonneg more es' y HM) as PM. unfold links_energy in PM.
    assert (PL : suml (combine links es) (fun ke => twice (k_R (fst ke)) * (y (fst (snd ke)) - y (snd (snd ke))) ^ 2) <= suml (combine links' es) (fun ke => twice (k_R (fst ke)) * (y (fst (snd ke)) - y (snd (snd ke))) ^ 2)).
    { clear - HL. revert es. induction HL as [|k k' links links' [H1 H2] HL IH]; intros [|e es]; try (unfold suml; cbn; lra). cbn [combine]. rewrite !suml_cons. cbn [fst snd]. apply Rplus_le_compat; auto.
      apply Rmult_le_compat_r; [apply pow2_ge_0|]. unfold twice, Rdiv. apply Rmult_le_compat_l; [lra|]. apply Rinv_le_contravar; auto. }
    change (T ROps) with R in *. lra.
Qed.
Print Assumptions C97_raise.
(** no current leaves a node that is not held, the currents of the electrodes add up to zero, voltage times current adds up to
    the power *)
Theorem C97_currents : forall A (sigma : A -> R) ms pss links es l us x w cs, ready_layers ms pss -> laid ms links es -> stack_held ms l us -> stack_settled sigma ms links l x ->
  stack_power sigma ms pss (fun r => 2 / r) links es x w -> Forall2 (stack_leaves sigma ms pss (fun r => 2 / r) links es x) us cs ->
  (forall u c, (u < nodes ms)%nat -> ~ In u us -> stack_leaves sigma ms pss (fun r => 2 / r) links es x u c -> c = 0) /\
  suml cs (fun c => c) = 0 /\ w = suml (combine (map (fun c => snd (fst c)) l) cs) (fun vc => fst vc * snd vc).
Proof.
  intros A sigma ms pss links es l us x w cs RD La Hh Sx Dx Cu. pose proof (proj1 La) as W. pose proof (laid_apart A ms pss links es RD La) as Df. change (fun r => 2 / r) with twice in *. apply power_quad in Dx; auto.
  apply (stack_iff A sigma ms pss links es l us x RD La Hh) in Sx. destruct Sx as [X1 X2].
  split; [intros u c Hu NI L; apply leaves_stack in L; auto; rewrite L; auto|].
  assert (Sy := Kw_sym A sigma ms pss twice links es). assert (Ro := Kw_rows A sigma ms pss twice links es RD W). assert (Rg : forall i, In i us -> (i < nodes ms)%nat) by (intros i I; eapply hung_range; eauto).
  assert (Cs : cs = map (act (nodes ms) (Kw sigma ms pss twice links es) x) us).
  { clear - Cu Rg RD W Df. induction Cu as [|i c us cs L F IH]; [reflexivity|]. cbn. f_equal; [apply leaves_stack in L; auto; apply Rg; left; auto|apply IH; intros; apply Rg; right; auto]. }
  set (K := Kw sigma ms pss twice links es) in *. set (n := nodes ms) in *.
  assert (SI : forall h : nat -> R, (forall i, (i < n)%nat -> ~ In i us -> h i = 0) -> sumn n h = suml us h).
  { destruct Hh as [_ ND]. clear - Rg ND.
    intros h. revert h. induction us as [|i ids IH]; intros h Z; [apply sumn_0; intros; apply Z; auto|]. apply NoDup_cons_iff in ND. destruct ND as [NI ND].
    rewrite suml_cons. rewrite <- (sumn_delta n i h) by (apply Rg; left; auto).
    rewrite (suml_ext _ ids h (fun j => if Nat.eqb j i then 0 else h j)) by (intros j Ij; destruct (Nat.eqb_spec j i); [subst; contradiction|auto]).
    rewrite <- IH; [|auto|intros; apply Rg; right; auto|].
    - rewrite <- sumn_plus. apply sumn_ext. intros j _. destruct (Nat.eqb j i); ring.
    - intros j Hj NJ. destruct (Nat.eqb_spec j i); auto. apply Z; auto. cbn. intuition. }
  split.
  - rewrite Cs, suml_map, <- SI; auto. unfold act. rewrite sumn_exchange. apply sumn_0. intros j Hj. rewrite sumn_scal_r.
    rewrite (sumn_ext n _ (K j)) by (intros; apply Sy). rewrite Ro by auto. ring.
  - rewrite Dx, Cs, quad_act. rewrite SI by (intros; rewrite X2 by auto; ring). clear - X1 Hh. destruct Hh as [F _].
    induction F as [|c id l ids C F IH]; [reflexivity|]. cbn [map combine]. rewrite !suml_cons. cbn [fst snd]. rewrite (X1 id (snd (fst c))) by (left; reflexivity). rewrite IH; [reflexivity|]. intros; apply X1; right; auto.
Qed.
Print Assumptions C97_currents.

(** ** C98: layers that are not joined *)
Lemma layer_calls : forall A (ms : list (mesh ROps A)) l us k m, stack_held ms l us -> nth_error ms k = Some m ->
  exists ids, held m (calls_of k l) ids /\ forall i v, (i < length (m_points m))%nat -> (In (i, v) (combine ids (map snd (calls_of k l))) <-> In ((before ms k + i)%nat, v) (combine us (map (fun c => snd (fst c)) l))).
Proof.
  intros A ms l us k m [F ND] Hk. unfold calls_of.
  assert (G : exists ids, Forall2 (fun c id => closest (m_points m) (fst c) id) (map fst (filter (fun c => Nat.eqb (snd c) k) l)) ids /\
    (forall i v, (i < length (m_points m))%nat -> (In (i, v) (combine ids (map snd (map fst (filter (fun c => Nat.eqb (snd c) k) l)))) <-> In ((before ms k + i)%nat, v) (combine us (map (fun c => snd (fst c)) l)))) /\
    (forall i, In i ids -> In (before ms k + i)%nat us /\ (i < length (m_points m))%nat) /\ NoDup ids).
  { induction F as [|[[p v] j] u l us Ad F IH]; [exists []; split; [constructor|split; [intros; cbn; tauto|split; [intros i []|constructor]]]|]. apply NoDup_cons_iff in ND. destruct ND as [NI ND].
    destruct (IH ND) as [ids [I1 [I2 [I3 I4]]]]. cbn [fst snd] in Ad. cbn [filter snd].
    destruct Ad as [m' [i [Hj [Cl Eu]]]]. pose proof (closest_lt _ _ _ Cl) as Hi. destruct (Nat.eqb_spec j k) as [->|N].
    - rewrite Hk in Hj. injection Hj as <-. exists (i :: ids). cbn [map fst snd]. split; [constructor; auto|]. split.
      + intros i' v' Hi'. cbn [combine In]. rewrite (I2 i' v' Hi'). split; (intros [E|E]; [left; injection E as E1 E2; f_equal; auto; lia|right; auto]).
      + split; [intros i' [<-|I]; [split; [left; auto|auto]|]; destruct (I3 i' I); split; [right; auto|auto]|]. constructor; auto. intros I. apply NI. rewrite Eu. apply I3; auto.
    - exists ids. split; auto. split.
      + intros i' v' Hi'. rewrite (I2 i' v' Hi'). cbn [map combine In fst snd]. split; [auto|]. intros [E|E]; auto. injection E as E1 E2. exfalso. apply N. rewrite E1 in Eu. destruct (node_unique A ms j k m' m i i'); auto.
      + split; auto. intros i' I. destruct (I3 i' I). split; [right; auto|auto]. }
  destruct G as [ids [I1 [I2 [I3 I4]]]]. exists ids. split; [split; auto|exact I2].
Qed.
Theorem C98_apart : forall A (sigma : A -> R) ms pss l us x, ready_layers ms pss -> stack_held ms l us ->
  (stack_settled sigma ms [] l x <-> forall k m, nth_error ms k = Some m -> settled sigma m (calls_of k l) (share ms x k)).
Proof.
  intros A sigma ms pss l us x RD Hh. assert (La : laid ms [] []) by (split; [apply wired_nil|split; constructor]).
  rewrite (stack_iff A sigma ms pss [] [] l us x RD La Hh). pose proof RD as [F [U _]].
  assert (Ac : forall i, act (nodes ms) (Kw sigma ms pss twice [] []) x i = act (nodes ms) (KL sigma ms pss) x i) by (intros; rewrite Kw_act by apply La; unfold suml; cbn; ring).
  assert (LY : forall k m, nth_error ms k = Some m -> exists ps, nth_error pss k = Some ps /\ fem_ready m ps /\ all_used m).
  { intros k m Hk. destruct (F2_nth _ _ _ _ _ F _ _ Hk) as [ps [Hp Rd]]. exists ps. split; auto. split; auto. rewrite Forall_forall in U. apply U. eapply nth_error_In; eauto. }
  split.
  - intros [H1 H2] k m Hk. destruct (LY k m Hk) as [ps [Hp [Rd Us]]]. destruct (layer_calls A ms l us k m Hh Hk) as [ids [Hd Eq]].
    apply (settled_iff A sigma m ps _ ids _ Rd Us Hd). split.
    + intros i v I. assert (Hi : (i < length (m_points m))%nat) by (eapply id_range; [exact Hd|]; eapply in_combine_l; eauto). apply Eq in I; auto. unfold share. auto.
    + intros i Hi NI. rewrite (F2_map_fst _ _ _ _ (proj1 Hd)) in NI. rewrite <- (KL_act A sigma ms pss F x k m ps i Hk Hp Hi), <- Ac. apply H2; [eapply before_lt; eauto|]. intros I. apply NI.
      destruct (hung_call A ms l us _ Hh I) as [c [_ I2]]. apply Eq in I2; auto. eapply in_combine_l; eauto.
  - intros H. split.
    + intros u v I. assert (Hu : (u < nodes ms)%nat) by (eapply hung_range; [exact Hh|]; eapply in_combine_l; eauto). destruct (node_exists A ms u Hu) as [k [m [i [Hk [Hi ->]]]]].
      destruct (LY k m Hk) as [ps [Hp [Rd Us]]]. destruct (layer_calls A ms l us k m Hh Hk) as [ids [Hd Eq]]. specialize (H k m Hk). apply (settled_iff A sigma m ps _ ids _ Rd Us Hd) in H. destruct H as [H1 _].
      apply Eq in I; auto. apply H1 in I. exact I.
    + intros u Hu NI. destruct (node_exists A ms u Hu) as [k [m [i [Hk [Hi ->]]]]]. rewrite Ac.
      destruct (LY k m Hk) as [ps [Hp [Rd Us]]]. destruct (layer_calls A ms l us k m Hh Hk) as [ids [Hd Eq]]. specialize (H k m Hk). apply (settled_iff A sigma m ps _ ids _ Rd Us Hd) in H. destruct H as [_ H2].
      rewrite (KL_act A sigma ms pss F x k m ps i Hk Hp Hi). apply H2; auto. rewrite (F2_map_fst _ _ _ _ (proj1 Hd)). intros I. apply NI. destruct (id_call A m _ ids i Hd I) as [c [_ I2]]. apply Eq in I2; auto. eapply in_combine_l; eauto.
Qed.
Print Assumptions C98_apart.
(** one layer is the single-layer simulation *)
Theorem C98_single : forall A (sigma : A -> R) m ps l ids x, fem_ready m ps -> all_used m -> held m l ids ->
  (stack_settled sigma [m] [] (map (fun c => (c, 0%nat)) l) x <-> settled sigma m l x).
Proof.
  intros A sigma m ps l ids x Rd Us [F ND]. pose proof Rd as [[_ [_ Hu]] _].
  assert (RD : ready_layers [m] [ps]) by (split; [constructor; [auto|constructor]|split; [constructor; [auto|constructor]|]]; unfold nodes; cbn; rewrite Nat.add_0_r; auto).
  assert (Hh : stack_held [m] (map (fun c => (c, 0%nat)) l) ids).
  { split; auto. clear ND. induction F as [|c id l ids C F IH]; cbn [map]; constructor; auto. cbn [fst snd]. exists m, id. split; [reflexivity|]. split; auto. }
  rewrite (C98_apart A sigma [m] [ps] _ ids x RD Hh).
  assert (EC : calls_of 0 (map (fun c => (c, 0%nat)) l) = l) by (unfold calls_of; clear; induction l as [|c l IH]; cbn; [reflexivity|rewrite IH; reflexivity]).
  split.
  - intros H. specialize (H 0%nat m eq_refl). rewrite EC in H. exact H.
  - intros H k m' Hk. destruct k as [|k]; [|destruct k; discriminate Hk]. injection Hk as <-. rewrite EC. exact H.
Qed.
Print Assumptions C98_single.

(** ** examples *)
(** two plates of two materials joined at their corners (0,0) by 1/2 Ohm: 0 V at that corner of the first, 1 V at the opposite
    corner of the second *)
Definition plates : list (mesh ROps R) := [sqm; sqm].
Definition stairs : nat -> R := fun v => nth v [0; 0; 0; 0; 1 / 2; 3 / 4; 1; 3 / 4] 0.
Definition plate_calls : list (pt * R * nat) := [(P 0 0, 0, 0%nat); (P 2 2, 1, 1%nat)].
Lemma plates_laid : forall r, r <> 0 -> laid plates [via r] [(0, 4)%nat].
Proof. intros r Hr. split; [apply via_wired; auto|]. split; [constructor; [cbn; lia|constructor]|constructor; constructor]. Qed.
Lemma plates_held : stack_held plates plate_calls [0; 6]%nat.
Proof.
  destruct sqm_corner as [C0 C2]. split; [|repeat constructor; cbn; intuition discriminate].
  constructor; [|constructor; [|constructor]]; cbn [fst snd]; [exists sqm, 0%nat|exists sqm, 2%nat]; (split; [reflexivity|]; split; [assumption|reflexivity]).
Qed.
Lemma plates_rows : forall r i, r <> 0 -> (i < 8)%nat -> act 8 (Kw (fun s => s) plates [[3; 5]; [3; 5]] twice [via r] [(0, 4)%nat]) stairs i = nth i [- (1 / r); 0; 0; 0; 1 / r - 2; 0; 2; 0] 0.
Proof.
  intros r i Hr Hi. pose proof two_ready as [F _]. change 8%nat with (nodes plates). rewrite Kw_act by (apply plates_laid; auto). cbn [map combine]. unfold suml. cbn [fold_right fst snd via k_R].
  assert (E : act (nodes plates) (KL (fun s => s) plates [[3; 5]; [3; 5]]) stairs i = nth i [0; 0; 0; 0; -2; 0; 2; 0] 0).
  { destruct (lt_dec i 4) as [L|L].
    - pose proof (KL_act R (fun s => s) plates _ F stairs 0 sqm [3; 5] i eq_refl eq_refl L) as Q. change (before plates 0 + i)%nat with i in Q. rewrite Q. unfold act. rewrite sumn_0.
      + destruct i as [|[|[|[|i]]]]; try lia; reflexivity.
      + intros j Hj. unfold share. change (before plates 0 + j)%nat with j. assert (stairs j = 0) as ->; [|ring]. cbn in Hj. destruct j as [|[|[|[|j]]]]; try lia; reflexivity.
    - replace i with (before plates 1 + (i - 4))%nat at 1 by (cbn; lia). rewrite (KL_act R (fun s => s) plates _ F stairs 1 sqm [3; 5] (i - 4) eq_refl eq_refl) by (cbn; lia).
      rewrite (act_ext _ _ _ (fun v => 1 / 2 * (fun _ => 1) v + 1 / 2 * half v)).
      + rewrite act_lin. change (length (m_points sqm)) with 4%nat. rewrite sqm_rows by lia. assert (act 4 (Kc (fun s => s) sqm [3; 5]) (fun _ => 1) (i - 4) = 0) as ->.
        { unfold act. rewrite (sumn_ext _ _ (Kc (fun s => s) sqm [3; 5] (i - 4))) by (intros; ring). apply (Kc_rows R (fun s => s) sqm [3; 5] (proj1 sqm_ready)). cbn; lia. }
        destruct i as [|[|[|[|[|[|[|[|i]]]]]]]]; try lia; cbn [nth Nat.sub]; lra.
      + intros v Hv. unfold share, half, stairs. cbn in Hv. destruct v as [|[|[|[|v]]]]; try lia; cbn; lra. }
  rewrite E. unfold twice, delta, stairs. destruct i as [|[|[|[|[|[|[|[|i]]]]]]]]; try lia; cbn [nth Nat.eqb]; field; auto.
Qed.
Lemma plates_settled : stack_settled (fun s => s) plates [via (1 / 2)] plate_calls stairs.
Proof.
  assert (La : laid plates [via (1 / 2)] [(0, 4)%nat]) by (apply plates_laid; lra).
  apply (stack_iff R (fun s => s) plates _ _ _ _ _ stairs two_ready La plates_held). split.
  - intros u v [I|[I|[]]]; injection I as <- <-; reflexivity.
  - intros i Hi NI. change (nodes plates) with 8%nat in *. rewrite plates_rows by (auto; lra). destruct i as [|[|[|[|[|[|[|[|i]]]]]]]]; try lia; cbn [nth]; try lra; exfalso; apply NI; cbn; auto.
Qed.
Example C95_met : ready_layers plates [[3; 5]; [3; 5]] /\ laid plates [via (1 / 2)] [(0, 4)%nat] /\ stack_held plates plate_calls [0; 6]%nat /\ stack_settled (fun s => s) plates [via (1 / 2)] plate_calls stairs.
Proof. split; [apply two_ready|]. split; [apply plates_laid; lra|]. split; [apply plates_held|apply plates_settled]. Qed.
Example C96_met : Forall never_obtuse plates /\ grounded plates [(0, 4)%nat] [0; 6]%nat /\ (forall c, In c plate_calls -> 0 <= snd (fst c) <= 1) /\ Forall (fun k : link ROps => 0 < k_R k) [via (1 / 2)] /\ 0 < stairs 4 < 1.
Proof.
  destruct C88_met as [NO _]. destruct C67_example as [_ [_ [_ [Gr HR]]]]. split; [constructor; [exact NO|constructor; [exact NO|constructor]]|]. split; [|split; [intros c [<-|[<-|[]]]; cbn; lra|split; [exact HR|unfold stairs; cbn; lra]]].
  intros v Hv. destruct (Gr v Hv) as [u [[<-|[]] H]]. exists 0%nat. split; [left; auto|exact H].
Qed.
Example C97_met : stack_power (fun s => s) plates [[3; 5]; [3; 5]] (fun r => 2 / r) [via (1 / 2)] [(0, 4)%nat] stairs 2 /\
  Forall2 (stack_leaves (fun s => s) plates [[3; 5]; [3; 5]] (fun r => 2 / r) [via (1 / 2)] [(0, 4)%nat] stairs) [0; 6]%nat [-2; 2].
Proof.
  assert (La : laid plates [via (1 / 2)] [(0, 4)%nat]) by (apply plates_laid; lra). pose proof (laid_apart R plates _ _ _ two_ready La) as Df. change (fun r => 2 / r) with twice. split.
  - apply power_quad; [apply two_ready|apply La|]. change (nodes plates) with 8%nat. rewrite quad_act. cbn [sumn]. rewrite !plates_rows by (lia || lra). unfold stairs. cbn [nth]. field.
  - constructor; [|constructor; [|constructor]]; (apply leaves_stack; [apply two_ready|apply La|exact Df|cbn; lia|]; change (nodes plates) with 8%nat; rewrite plates_rows by (lia || lra); cbn [nth]; field).
Qed.
(** with the conductance 1/r that the resistance stands for, current does not balance at a node that nothing holds *)
Theorem C97_refuted : exists (ms : list (mesh ROps R)) pss links es l us x u c, ready_layers ms pss /\ laid ms links es /\ Forall (fun k : link ROps => 0 < k_R k) links /\ stack_held ms l us /\ grounded ms es us /\
  stack_settled (fun s => s) ms links l x /\ (u < nodes ms)%nat /\ ~ In u us /\ stack_leaves (fun s => s) ms pss (fun r => 1 / r) links es x u c /\ c <> 0.
Proof.
  assert (La : laid plates [via (1 / 2)] [(0, 4)%nat]) by (apply plates_laid; lra). pose proof (laid_apart R plates _ _ _ two_ready La) as Df. destruct C96_met as [_ [Gr [_ [HR _]]]].
  exists plates, [[3; 5]; [3; 5]], [via (1 / 2)], [(0, 4)%nat], plate_calls, [0; 6]%nat, stairs, 4%nat, (-1).
  split; [apply two_ready|]. split; [exact La|]. split; [exact HR|]. split; [apply plates_held|]. split; [exact Gr|]. split; [apply plates_settled|]. split; [cbn; lia|]. split; [cbn; lia|]. split; [|lra].
  apply leaves_stack; [apply two_ready|apply La|exact Df|cbn; lia|]. rewrite Kw_act by apply La.
  assert (Q := plates_rows (1 / 2) 4 ltac:(lra) ltac:(lia)). change 8%nat with (nodes plates) in Q. rewrite Kw_act in Q by apply La. cbn [map combine] in *. unfold suml in *. cbn [fold_right fst snd via k_R nth] in *. unfold twice, delta, stairs in *. cbn [nth Nat.eqb] in *. change (T ROps) with R in *. lra.
Qed.
Print Assumptions C97_refuted.
Lemma wired_more : forall A (ms : list (mesh ROps A)) es es', incl es es' -> forall u v, wired_to ms es u v -> wired_to ms es' u v.
Proof. intros A ms es es' Hi u v H. induction H as [|u k m v w H IH Hk Lk|u v w H IH I]; [constructor|eapply wt_tri; eauto|]. eapply wt_link; [exact IH|]. destruct I as [I|I]; auto. Qed.
(** two interconnections between the same nodes: everything is held at 1 V, yet the second plate is at 1/2 V *)
Theorem C96_refuted : exists (ms : list (mesh ROps R)) pss links es l us x u, ready_layers ms pss /\ wired ms links es /\ across links /\ Forall (fun k : link ROps => 0 < k_R k) links /\ stack_held ms l us /\ grounded ms es us /\
  Forall never_obtuse ms /\ (forall c, In c l -> snd (fst c) = 1) /\ stack_settled (fun s => s) ms links l x /\ (u < nodes ms)%nat /\ x u < 1.
Proof.
  assert (W : wired plates [via 1; via 1] [(0, 4); (0, 4)]%nat) by (split; (constructor; [|constructor; [|constructor]]); try apply via_joins; cbn; lra).
  destruct (any_links (fun s => s) plates _ two_ready [via 1; via 1] _ W) as [Ss [S [FE [ES [VS [LS [_ [VB V]]]]]]]]; [repeat constructor; cbn; lia|].
  destruct C96_met as [NO [Gr _]]. destruct sqm_corner as [C0 _]. destruct C67_example as [_ [_ [_ [Gr0 _]]]].
  set (x := fun v : nat => if Nat.ltb v 4 then 1 else 1 / 2).
  assert (Hh : stack_held plates [(P 0 0, 1, 0%nat)] [0%nat]) by (split; [constructor; [exists sqm, 0%nat; auto|constructor]|repeat constructor; cbn; tauto]).
  exists plates, [[3; 5]; [3; 5]], [via 1; via 1], [(0, 4); (0, 4)]%nat, [(P 0 0, 1, 0%nat)], [0%nat], x, 4%nat.
  split; [apply two_ready|]. split; [exact W|]. split; [repeat constructor; cbn; lia|]. split; [repeat constructor; cbn; lra|]. split; [exact Hh|]. split.
  { intros v Hv. destruct (Gr0 v Hv) as [u [[<-|[]] H]]. exists 0%nat. split; [left; auto|]. apply (wired_more _ _ [(0, 4)%nat]); [intros e [<-|[]]; left; auto|exact H]. }
  split; [exact NO|]. split; [intros c [<-|[]]; reflexivity|]. split; [|split; [cbn; lia|unfold x; cbn; lra]].
  apply (stack_any R (fun s => s) plates _ _ [0%nat] x S Hh ES VS LS VB). split; [intros u v [I|[]]; injection I as <- <-; reflexivity|].
  destruct sqm_ready as [Rd Us]. inversion FE as [|? S1 ? Ss' E1 FE']; subst. inversion FE' as [|? S2 ? Ss'' E2 FE'']; subst. inversion FE''; subst.
  assert (VK : forall k Sk i j, nth_error [S1; S2] k = Some Sk -> (i < 4)%nat -> (j < 4)%nat -> value 0 (sA R Sk) i j = Kc (fun s => s) sqm [3; 5] i j).
  { intros k Sk i j Hk Hi Hj. destruct (cd_values sqm [3; 5] (fun s => s) Rd Us) as [S3 [E3 [_ [_ [_ [VM _]]]]]]. assert (cd_getFemSystem ROps R (fun s => s) sqm = Ok Sk) by (destruct k as [|[|k]]; cbn in Hk; try (destruct k; discriminate Hk); injection Hk as <-; auto).
    rewrite E3 in H. injection H as <-. apply VM; auto. }
  intros u Hu NI. change (nodes plates) with (4 + 4)%nat. unfold act. rewrite sumn_app. change (nodes plates) with 8%nat in Hu. destruct (node_exists R plates u Hu) as [k [m [i [Hk [Hi Eu]]]]].
  assert (exists Sk, nth_error [S1; S2] k = Some Sk) as [Sk HS] by (destruct k as [|[|k]]; [eexists; reflexivity..|destruct k; discriminate Hk]).
  assert (m = sqm) as -> by (destruct k as [|[|k]]; cbn in Hk; try (destruct k; discriminate Hk); injection Hk as <-; reflexivity). change (length (m_points sqm)) with 4%nat in Hi.
  assert (R0 := Kc_rows R (fun s => s) sqm [3; 5] Rd i Hi). change (length (m_points sqm)) with 4%nat in R0.
  assert (V0 : forall j, (j < 4)%nat -> value 0 (sA R S) u j = _) by (intros j Hj; rewrite Eu; exact (V k 0%nat sqm sqm Sk i j Hk eq_refl HS Hi Hj)).
  assert (V1 : forall j, (j < 4)%nat -> value 0 (sA R S) u (4 + j) = _) by (intros j Hj; rewrite Eu; exact (V k 1%nat sqm sqm Sk i j Hk eq_refl HS Hi Hj)).
  rewrite (sumn_ext 4 (fun j => value 0 (sA R S) u j * x j) (fun j => value 0 (sA R S) u j * 1)) by (intros j Hj; unfold x; destruct (Nat.ltb_spec j 4); [reflexivity|lia]).
  rewrite (sumn_ext 4 (fun j => value 0 (sA R S) u (4 + j)%nat * x (4 + j)%nat) (fun j => value 0 (sA R S) u (4 + j)%nat * (1 / 2))) by (intros j Hj; unfold x; destruct (Nat.ltb_spec (4 + j) 4); [lia|reflexivity]).
  cbn [sumn] in R0 |- *. change (T ROps) with R in *. rewrite !V0, !V1 by lia. rewrite !(VK k Sk) by (auto; lia).
  destruct k as [|[|k]]; [| |destruct k; discriminate Hk]; cbn [before firstn nodes map list_sum fold_right Nat.add plates] in *; destruct i as [|[|[|[|i]]]]; try lia; subst u; try (exfalso; apply NI; cbn; auto; fail);
    cbn [Nat.add Nat.eqb andb orb last_link combine map via k_R length m_points sqm]; unfold LayersSpec.at_node, suml; cbn [fold_right fst snd combine map via k_R Nat.eqb Nat.add length m_points sqm]; change (T ROps) with R in *; lra.
Qed.
Print Assumptions C96_refuted.
Example C98_met : ready_layers plates [[3; 5]; [3; 5]] /\ stack_held plates plate_calls [0; 6]%nat /\ calls_of 0 plate_calls = [(P 0 0, 0)] /\ calls_of 1 plate_calls = [(P 2 2, 1)].
Proof. split; [apply two_ready|]. split; [apply plates_held|]. split; reflexivity. Qed.
