(** The three vertices that the infinite boundary pins, in exact arithmetic. *)
From Coq Require Import String.
From Coq Require Import List Arith ZArith NArith Bool Lia Reals Lra Permutation.
From Verif Require Import Base SumR AlgebraModel AlgebraSpec Coo_proofs Csr_proofs System_proofs NonLinear_proofs Algebra_bridge GeometryModel GeometrySpec DrawingModel DrawingSpec SolversSpec Geometry_proofs MeshModel MeshSpec Adjacency_proofs Fem_proofs Energy_proofs.
Import ListNotations.
Local Open Scope R_scope.

Section Far.
Variable D : nat -> R.
Hypothesis D0 : forall i, 0 <= D i.
Definition slot (i : nat) (s : nat * R) : Prop := 0 < snd s -> (fst s < i)%nat /\ D (fst s) = snd s.
Definition in_slot (j : nat) (s : nat * R) : Prop := 0 < snd s /\ fst s = j.
Definition far_inv (i : nat) (s : nat * R * (nat * R) * (nat * R)) : Prop :=
  let '(a, b, c) := s in
  0 <= snd c /\ snd c <= snd b /\ snd b <= snd a /\ slot i a /\ slot i b /\ slot i c /\
  (0 < snd b -> fst a <> fst b) /\ (0 < snd c -> fst a <> fst c /\ fst b <> fst c) /\
  forall j, (j < i)%nat -> D j <= snd c \/ in_slot j a \/ in_slot j b \/ in_slot j c.
Lemma far_keep : forall i s, far_inv i s -> far_inv (S i) (far_step ROps i (D i) s).
Proof using D0.
  intros i [[[a da] [b db]] [c dc]] H. unfold far_inv in H. cbn [fst snd] in H. destruct H as [C0 [CB [BA [Sa [Sb [Sc [Nab [Nc Hj]]]]]]]].
  unfold slot in *. cbn [fst snd] in *. pose proof (D0 i) as Di. unfold far_step, gtb. cbn [fst snd ltb ROps].
  assert (IA : 0 < da -> (a < i)%nat) by (intros X; apply Sa; auto). assert (IB : 0 < db -> (b < i)%nat) by (intros X; apply Sb; auto). assert (IC : 0 < dc -> (c < i)%nat) by (intros X; apply Sc; auto).
  assert (SA : 0 < da -> (a < S i)%nat /\ D a = da) by (intros X; destruct (Sa X); split; auto).
  assert (SB : 0 < db -> (b < S i)%nat /\ D b = db) by (intros X; destruct (Sb X); split; auto).
  assert (SC : 0 < dc -> (c < S i)%nat /\ D c = dc) by (intros X; destruct (Sc X); split; auto).
  assert (SI : forall x, x = D i -> 0 < x -> (i < S i)%nat /\ D i = x) by (intros x ->; split; auto).
  assert (NA : 0 < da -> i <> a) by (intros X; specialize (IA X); lia). assert (NB : 0 < db -> i <> b) by (intros X; specialize (IB X); lia).
  unfold in_slot in Hj. cbn [fst snd] in Hj.
  destruct (Rltb da (D i)) eqn:E1; [apply Rltb_true in E1|apply Rltb_false in E1; destruct (Rltb db (D i)) eqn:E2; [apply Rltb_true in E2|apply Rltb_false in E2; destruct (Rltb dc (D i)) eqn:E3; [apply Rltb_true in E3|apply Rltb_false in E3]]];
    unfold far_inv, slot, in_slot; cbn [fst snd].
  - repeat (split; [solve [auto; lra]|]). try (split; [intros X; split; [apply NB; lra|apply Nab; lra]|]).
    intros j Lj. destruct (Nat.eq_dec j i) as [->|Nj]; [right; left; split; [lra|auto]|].
    destruct (Hj j ltac:(lia)) as [K|[K|[K|[K1 K2]]]]; [left; lra|auto|auto|]. left. subst j. destruct (SC K1) as [_ ->]. lra.
  - repeat (split; [solve [auto; lra]|]). try (split; [intros X; apply not_eq_sym; apply NA; lra|]). try (split; [intros X; split; [apply Nab; lra|apply NB; lra]|]).
    intros j Lj. destruct (Nat.eq_dec j i) as [->|Nj]; [right; right; left; split; [lra|auto]|].
    destruct (Hj j ltac:(lia)) as [K|[K|[K|[K1 K2]]]]; [left; lra|auto|auto|]. left. subst j. destruct (SC K1) as [_ ->]. lra.
  - repeat (split; [solve [auto; lra]|]). try (split; [intros X; split; apply not_eq_sym; [apply NA; lra|apply NB; lra]|]).
    intros j Lj. destruct (Nat.eq_dec j i) as [->|Nj]; [right; right; right; split; [lra|auto]|].
    destruct (Hj j ltac:(lia)) as [K|[K|[K|[K1 K2]]]]; [left; lra|auto|auto|]. left. subst j. destruct (SC K1) as [_ ->]. lra.
  - repeat (split; [solve [auto; lra]|]). intros j Lj. destruct (Nat.eq_dec j i) as [->|Nj]; [left; lra|]. apply Hj. lia.
Qed.
End Far.
(** i has vertices at least as far as every vertex outside l *)
Lemma farthest_R : forall (pts : list pt), let D := fun i => dist (nth i pts org) org in
  (exists i j k, (i < length pts)%nat /\ (j < length pts)%nat /\ (k < length pts)%nat /\ i <> j /\ i <> k /\ j <> k /\ 0 < D i /\ 0 < D j /\ 0 < D k) ->
  exists a b c, farthest ROps pts = Ok (a, b, c) /\ (a < length pts)%nat /\ (b < length pts)%nat /\ (c < length pts)%nat /\
    a <> b /\ a <> c /\ b <> c /\ D b <= D a /\ D c <= D b /\ 0 < D c /\
    forall j, (j < length pts)%nat -> j <> a -> j <> b -> j <> c -> D j <= D c.
Proof.
  intros pts D [i [j [k [Hi [Hj [Hk [Nij [Nik [Njk [Pi [Pj Pk]]]]]]]]]]]. unfold farthest, forM_up.
  assert (D0 : forall i, 0 <= D i) by (intros; apply dist_nonneg).
  assert (G : forall n a s, (a + n = length pts)%nat -> far_inv D a s -> exists s', forM_from n a (fun i s => p <- get pts i ;; d <- distance ROps p (vzero ROps) ;; Ok (far_step ROps i d s)) s = Ok s' /\ far_inv D (length pts) s').
  { induction n as [|n IH]; intros a s Ha Hs; cbn [forM_from].
    - exists s. split; auto. replace (length pts) with a by lia. auto.
    - rewrite (get_lt _ pts a org) by lia. cbn [bind]. rewrite distance_R. cbn [bind]. change (dist (nth a pts org) (vzero ROps)) with (D a). apply IH; [lia|]. apply far_keep; auto. }
  destruct (G (length pts) 0%nat ((0%nat, zero ROps), (0%nat, zero ROps), (0%nat, zero ROps))) as [s' [E I]]; auto.
  { unfold far_inv, slot. cbn [fst snd]. change (zero ROps) with 0. repeat (split; [lra|]). intros j0 X. lia. }
  rewrite E. cbn [bind]. destruct s' as [[[a da] [b db]] [c dc]]. unfold far_inv, slot, in_slot in I. cbn [fst snd] in *.
  destruct I as [C0 [CB [BA [Sa [Sb [Sc [Nab [Nc HJ]]]]]]]].
  assert (PC : 0 < dc).
  { destruct (Rlt_dec 0 dc) as [|N]; auto. exfalso. assert (dc = 0) by lra. subst dc.
    assert (Q : forall x, (x < length pts)%nat -> 0 < D x -> x = a \/ x = b).
    { intros x Lx Px. destruct (HJ x Lx) as [K|[[_ K]|[[_ K]|[K _]]]]; auto; lra. }
    destruct (Q i Hi Pi), (Q j Hj Pj), (Q k Hk Pk); congruence. }
  destruct (Sa ltac:(lra)) as [La Da]. destruct (Sb ltac:(lra)) as [Lb Db]. destruct (Sc PC) as [Lc Dc]. destruct (Nc PC) as [Nac Nbc].
  exists a, b, c. rewrite Da, Db, Dc. split; auto. do 6 (split; [auto; apply Nab; lra|]). do 3 (split; [lra|]).
  intros x Lx Xa Xb Xc. destruct (HJ x Lx) as [K|[[_ K]|[[_ K]|[_ K]]]]; try congruence; lra.
Qed.

(** ** Pins on a symbolic system *)
Lemma nDirichlet_keeps : forall (S : nsystem ROps) id (v : R) S', valid_system S -> (id < length (sb _ S))%nat -> nDirichlet ROps S id v = Ok S' ->
  valid_system S' /\ length (sb _ S') = length (sb _ S) /\ (all_diag_touched (sA _ S) -> all_diag_touched (sA _ S')).
Proof.
  intros S id v S' W Hid E. pose proof (valid_wf _ _ W) as WF.
  destruct (addDirichlet_exact ROps (nexpr ROps) (ne_zero ROps) (ne_scale ROps) (ne_sub ROps) (ne_const ROps) S id v WF Hid) as [S'' [E' [W' [L [EN _]]]]].
  pose proof (eq_trans (eq_sym E') E) as K. inversion K; subst S''. clear K. apply wf_valid in W'. split; auto. split; auto.
  intros D i Hi. destruct W' as [_ [C' _]]. rewrite C', L in Hi. pose proof W as [_ [C _]].
  unfold touched. destruct (in_dec N.eq_dec (key i i) (map fst (elems (sA _ S')))) as [I|I]; auto. exfalso.
  apply find_key_none in I. specialize (EN i i Hi Hi). unfold entry_opt, ukey in EN. rewrite Nat.min_id, Nat.max_id, I, Nat.eqb_refl in EN.
  destruct (Nat.eqb i id); [discriminate EN|]. symmetry in EN. apply find_key_none in EN. apply EN. apply D. lia.
Qed.
Lemma same_dirichlet : forall S1 S2 id v D1 D2, valid_system S1 -> valid_system S2 -> same_system S1 S2 -> (id < sdim S1)%nat ->
  dDirichlet ROps S1 id v = Ok D1 -> dDirichlet ROps S2 id v = Ok D2 -> same_system D1 D2.
Proof.
  intros S1 S2 id v D1 D2 W1 W2 [L [M B]] Hid E1 E2.
  destruct (dDirichlet_ok S1 id v (valid_wf _ _ W1) Hid) as [D1' [F1 [X1 [L1 [N1 B1]]]]]. rewrite E1 in F1. injection F1 as <-.
  rewrite L in Hid. destruct (dDirichlet_ok S2 id v (valid_wf _ _ W2) Hid) as [D2' [F2 [X2 [L2 [N2 B2]]]]]. rewrite E2 in F2. injection F2 as <-.
  rewrite <- L in Hid. split; [congruence|]. rewrite L1. split.
  - intros i j Hi Hj. fsent. rewrite N1 by auto. rewrite N2 by (rewrite <- L; auto). unfold sent. rewrite M by auto. reflexivity.
  - apply nth_ext with (d := 0) (d' := 0).
    + change (length (sb R D1)) with (sdim D1). change (length (sb R D2)) with (sdim D2). congruence.
    + intros i Hi. change (length (sb R D1)) with (sdim D1) in Hi. rewrite L1 in Hi. change (vget (sb R D1) i = vget (sb R D2) i).
      rewrite B1 by auto. rewrite B2 by (rewrite <- L; auto). unfold sent. rewrite M by auto. rewrite B. reflexivity.
Qed.
Lemma same_trans : forall S1 S2 S3, same_system S1 S2 -> same_system S2 S3 -> same_system S1 S3.
Proof. intros S1 S2 S3 [L1 [M1 B1]] [L2 [M2 B2]]. split; [congruence|]. split; [|congruence]. intros i j Hi Hj. rewrite M1 by auto. apply M2; rewrite <- L1; auto. Qed.
Lemma same_refl : forall S, same_system S S.
Proof. intros S. split; auto. Qed.
Lemma eval_valid : forall S mu, valid_system S -> valid_system (sys_eval S mu).
Proof. intros S mu W. apply wf_valid. apply sys_eval_wf. apply valid_wf. auto. Qed.
Lemma eval_dim : forall S mu, sdim (sys_eval S mu) = length (sb _ S).
Proof. intros. unfold sdim, sys_eval. cbn [sb]. apply map_length. Qed.
Fixpoint pin_all (S : nsystem ROps) (l : list (nat * R)) : res (nsystem ROps) :=
  match l with [] => Ok S | (id, v) :: l' => S' <- nDirichlet ROps S id v ;; pin_all S' l' end.
Lemma pin_all_ok : forall l S mu D0, valid_system S -> sys_ok S mu -> (forall p, In p l -> (fst p < length (sb _ S))%nat) -> valid_system D0 -> same_system (sys_eval S mu) D0 ->
  exists S' D, pin_all S l = Ok S' /\ dirichlet_all D0 l = Ok D /\ valid_system S' /\ length (sb _ S') = length (sb _ S) /\
    (all_diag_touched (sA _ S) -> all_diag_touched (sA _ S')) /\ sys_ok S' mu /\ valid_system D /\ same_system (sys_eval S' mu) D.
Proof.
  induction l as [|[id v] l IH]; intros S mu D0 W K HI WD SD; cbn [pin_all dirichlet_all].
  - exists S, D0. repeat (split; [solve [auto]|]). auto.
  - assert (Hid : (id < length (sb _ S))%nat) by (apply (HI (id, v)); left; auto).
    destruct (nDirichlet_v S id v mu W Hid K) as [S1 [D1 [E1 [W1 [K1 [F1 Q1]]]]]]. rewrite E1. cbn [bind].
    destruct (nDirichlet_keeps S id v S1 W Hid E1) as [_ [L1 T1]].
    assert (Hid' : (id < sdim D0)%nat) by (rewrite <- (proj1 SD), eval_dim; auto).
    destruct (dDirichlet_ok D0 id v (valid_wf _ _ WD) Hid') as [D2 [F2 [X2 _]]]. rewrite F2. cbn [bind].
    assert (Hid2 : (id < sdim (sys_eval S mu))%nat) by (rewrite eval_dim; auto).
    pose proof (same_dirichlet _ _ _ _ _ _ (eval_valid S mu W) WD SD Hid2 F1 F2) as Q2.
    destruct (IH S1 mu D2 W1 K1) as [S' [D [E [F [W' [L' [T' [K' [WD' Q]]]]]]]]].
    + intros p Hp. rewrite L1. apply HI. right. auto.
    + apply wf_valid. auto.
    + eapply same_trans; eauto.
    + exists S', D. split; auto. split; auto. split; auto. split; [congruence|]. split; auto.
Qed.
Lemma same_solves : forall S1 S2 x, same_system S1 S2 -> (solves S1 x <-> solves S2 x).
Proof.
  assert (G : forall S1 S2 x, same_system S1 S2 -> solves S1 x -> solves S2 x).
  { intros S1 S2 x [L [M B]] H i Hi. rewrite <- L in Hi. specialize (H i Hi). unfold row_eq in *. rewrite <- L, <- B, <- H. apply sumn_ext. intros j Hj. rewrite M by auto. reflexivity. }
  intros S1 S2 x Q. split; apply G; auto. destruct Q as [L [M B]]. split; auto. split; auto. intros i j Hi Hj. symmetry. apply M; rewrite L; auto.
Qed.
Lemma same_posdef : forall S1 S2, same_system S1 S2 -> posdef (sdim S2) (value 0 (sA R S2)) -> posdef (sdim S1) (value 0 (sA R S1)).
Proof.
  intros S1 S2 [L [M B]] H x Hx. rewrite <- L in H. specialize (H x Hx). unfold quad in *.
  replace (sumn (sdim S1) (fun i => sumn (sdim S1) (fun j => x i * value 0 (sA R S1) i j * x j))) with (sumn (sdim S1) (fun i => sumn (sdim S1) (fun j => x i * value 0 (sA R S2) i j * x j))); auto.
  apply sumn_ext. intros i Hi. apply sumn_ext. intros j Hj. rewrite M by auto. auto.
Qed.
Lemma infinite_pins : forall A (m : mesh ROps A) (S : nsystem ROps) a b c, farthest ROps (m_points m) = Ok (a, b, c) ->
  addDirichletInfinite ROps A m S = pin_all S [(a, 0); (b, 0); (c, 0)].
Proof.
  intros A m S a b c E. unfold addDirichletInfinite. rewrite E. cbn [bind pin_all]. change (zero ROps) with 0.
  destruct (nDirichlet ROps S a 0) as [S1|s|s|s]; cbn [bind]; auto. destruct (nDirichlet ROps S1 b 0) as [S2|s|s|s]; cbn [bind]; auto.
  destruct (nDirichlet ROps S2 c 0) as [S3|s|s|s]; cbn [bind]; auto.
Qed.
Lemma infinite_solutions : forall A (m : mesh ROps A) (S : nsystem ROps) a b c mu, farthest ROps (m_points m) = Ok (a, b, c) -> NoDup [a; b; c] ->
  (a < length (m_points m))%nat -> (b < length (m_points m))%nat -> (c < length (m_points m))%nat -> valid_system S -> length (sb _ S) = length (m_points m) -> sys_ok S mu ->
  exists S', addDirichletInfinite ROps A m S = Ok S' /\ valid_system S' /\ length (sb _ S') = length (m_points m) /\ sys_ok S' mu /\
    (all_diag_touched (sA _ S) -> all_diag_touched (sA _ S')) /\
    (psd_off (sys_eval S mu) [a; b; c] -> posdef (length (m_points m)) (value 0 (sA R (sys_eval S' mu)))) /\
    forall x, solves (sys_eval S' mu) x <-> (x a = 0 /\ x b = 0 /\ x c = 0 /\
      forall i, (i < length (m_points m))%nat -> i <> a -> i <> b -> i <> c -> row_eq (sys_eval S mu) x i).
Proof.
  intros A m S a b c mu E ND La Lb Lc W L K. rewrite (infinite_pins A m S a b c E).
  destruct (pin_all_ok [(a, 0); (b, 0); (c, 0)] S mu (sys_eval S mu) W K) as [S' [D [E' [F [W' [L' [T' [K' [WD Q]]]]]]]]].
  - rewrite L. intros p [<-|[<-|[<-|[]]]]; auto.
  - apply eval_valid. auto.
  - apply same_refl.
  - exists S'. split; auto. split; auto. split; [congruence|]. split; auto. split; auto. split.
    + intros HP. assert (IN : forall p, In p [(a, 0); (b, 0); (c, 0)] -> (fst p < sdim (sys_eval S mu))%nat) by (rewrite eval_dim, L; intros p [<-|[<-|[<-|[]]]]; auto).
      destruct (psd_all [(a, 0); (b, 0); (c, 0)] (sys_eval S mu) D (eval_valid S mu W) IN F HP) as [_ [LD [_ PD]]].
      pose proof (same_posdef _ _ Q PD) as X. rewrite eval_dim, L', L in X. exact X.
    + destruct (dirichlet_all_v (sys_eval S mu) [(a, 0); (b, 0); (c, 0)] (eval_valid S mu W)) as [D' [F' [LD HS]]]; auto.
      { intros id v I. rewrite eval_dim, L. destruct I as [I|[I|[I|[]]]]; injection I as <- <-; auto. }
      rewrite F in F'. injection F' as <-. intros x. rewrite (same_solves _ _ x Q), HS. rewrite eval_dim, L. cbn [map fst In]. split.
      * intros [H1 H2]. split; [apply (H1 a 0); auto|]. split; [apply (H1 b 0); auto|]. split; [apply (H1 c 0); auto|].
        intros i Hi Na Nb Nc. apply H2; auto. intuition congruence.
      * intros [Xa [Xb [Xc H2]]]. split.
        -- intros id v I. destruct I as [I|[I|[I|[]]]]; injection I as <- <-; auto.
        -- intros i Hi N. apply H2; auto; intros ->; apply N; auto.
Qed.
(** the system of a connected triangulation with positive permeabilities, pinned at infinity, is positive definite *)
Lemma ms_pinned : forall A (m : mesh ROps A) ps (curJ : A -> R) (mag : A -> pt) es S a b c, fem_ready m ps -> all_used m ->
  ms_getFemSystem ROps A curJ mag m es = Ok S -> farthest ROps (m_points m) = Ok (a, b, c) -> NoDup [a; b; c] ->
  (a < length (m_points m))%nat -> (b < length (m_points m))%nat -> (c < length (m_points m))%nat -> pins m [a; b; c] ->
  forall mu, length mu = length (m_tris m) -> (forall i, (i < length mu)%nat -> 0 < vget mu i) ->
  exists S', addDirichletInfinite ROps A m S = Ok S' /\ valid_system S' /\ length (sb _ S') = length (m_points m) /\ sys_ok S' mu /\
    all_diag_touched (sA _ S') /\ spd (coo_eval (sA _ S') mu).
Proof.
  intros A m ps curJ mag es S a b c RD U E EF ND La Lb Lc HP mu Lm Pm.
  destruct (ms_system m ps curJ RD mag es S E) as [W [L [T HS]]].
  assert (MV : mu_vector m mu) by (split; auto; intros i Hi; specialize (Pm i Hi); lra).
  destruct (HS mu MV) as [K [LS [Q [RS VM]]]].
  destruct (infinite_solutions A m S a b c mu EF ND La Lb Lc W L K) as [S' [E' [W' [L' [K' [T' [PD _]]]]]]].
  exists S'. split; auto. split; auto. split; auto. split; auto. split; [auto|].
  assert (PO : psd_off (sys_eval S mu) [a; b; c]).
  { apply (energy_definite m ps RD (fun x => / vget mu (fst x)) (sys_eval S mu) LS VM); auto.
    intros e He. apply Rinv_0_lt_compat. apply Pm. rewrite Lm. apply nth_error_Some. rewrite (elements_in A m ps e He). discriminate. }
  specialize (PD PO). unfold spd. change (sA R (sys_eval S' mu)) with (coo_eval (sA _ S') mu) in PD.
  replace (cm (coo_eval (sA _ S') mu)) with (length (m_points m)); auto. destruct W' as [_ [C' _]]. cbn [coo_eval cm]. congruence.
Qed.
