(** Final forms of the linear algebra lemmas, in the vocabulary of AlgebraSpec.v. *)
From Coq Require Import String.
From Coq Require Import List Arith ZArith NArith Bool Lia Reals Lra Psatz Permutation.
From Verif Require Import Base SumR AlgebraModel AlgebraSpec Coo_proofs Csr_proofs Mult_proofs Vec_proofs System_proofs NonLinear_proofs.
Import ListNotations.

Section B.
Context {V : Type}.
Variable v0 : V.

Lemma valid_in_range : forall A : coo V, valid_coo A -> is_u32 (cm A) -> in_range (cm A) (elems A).
Proof.
  intros A [ND H] U. unfold in_range. rewrite Forall_forall. intros [k v] I. cbn [fst].
  destruct (H k v I) as [i [j [L [J E]]]]. subst k.
  assert (is_u32 i /\ is_u32 j) by (split; apply (is_u32_le _ (cm A)); auto; lia). destruct H0.
  split; [exists i, j; auto|]. rewrite kcol_key; auto.
Qed.

Lemma fits_cm : forall A : coo V, fits A -> is_u32 (cm A).
Proof. intros A [F _]. eapply is_u32_le; [|exact F]. lia. Qed.

Lemma lossless : forall A : coo V, valid_coo A -> fits A -> all_diag_touched A ->
  exists C, csr_build v0 A = Ok C /\ m C = cm A /\ nnz C = offdiag_count A /\
    forall i j, i < cm A -> j < cm A -> csr_at v0 C i j = Ok (value v0 A i j).
Proof.
  intros A W F D. pose proof (valid_in_range A W (fits_cm A F)) as R. destruct F as [F1 F2]. destruct W as [ND _].
  destruct (csr_build_ok v0 A F1 F2 R ND D) as [C [E [_ [_ [N _]]]]].
  destruct (csr_build_lossless v0 A F1 F2 R ND D) as [C' [E' [M At]]]. rewrite E in E'; inversion E'; subst C'.
  exists C; auto.
Qed.

Lemma order_free : forall A1 A2 : coo V, valid_coo A1 -> Permutation (elems A1) (elems A2) -> cm A1 = cm A2 ->
  csr_build v0 A1 = csr_build v0 A2.
Proof. intros A1 A2 [ND _] P M. apply csr_build_order; auto. Qed.

Lemma trichotomy : forall A : coo V, valid_coo A -> fits A ->
  (all_diag_touched A /\ exists C, csr_build v0 A = Ok C /\ nnz C = offdiag_count A) \/
  (~ all_diag_touched A /\ cm A <= length (elems A) /\ is_ub (csr_build v0 A)) \/
  (length (elems A) < cm A /\ exists C, csr_build v0 A = Ok C /\
     (Z.of_nat (nnz C) = 2 ^ 32 - (Z.of_nat (cm A) - Z.of_nat (length (elems A))))%Z).
Proof.
  intros A W F. pose proof (valid_in_range A W (fits_cm A F)) as R. destruct F as [F1 F2]. destruct W as [ND _].
  exact (csr_build_trichotomy v0 A F1 F2 R ND).
Qed.

(** any history of in-range accesses reaches a valid matrix *)
Definition op_in (n : nat) (op : cop V) : Prop := match op with CRead i j => j < n | CWrite i j _ => j < n end.

Lemma step_valid : forall n (A A' : coo V) op out, cstep v0 A op A' out -> op_in n op -> cm A = n -> valid_coo A -> valid_coo A' /\ cm A' = n.
Proof.
  intros n A A' op out St I M W.
  assert (G : forall i j (A1 : coo V), i <= j -> j < n -> cm A1 = cm A ->
     (NoDup (map fst (elems A)) -> NoDup (map fst (elems A1))) ->
     (forall k, In k (map fst (elems A1)) <-> k = key i j \/ In k (map fst (elems A))) -> valid_coo A1).
  { intros i j A1 L J M1 N1 K. destruct W as [ND H]. split; auto. intros k v Iv.
    apply (in_map fst) in Iv. cbn [fst] in Iv. apply K in Iv. destruct Iv as [E|Iv].
    - exists i, j. repeat split; auto. congruence.
    - apply in_map_iff in Iv. destruct Iv as [[k' v'] [E Iv]]. cbn in E; subst k'. rewrite M1. apply (H k v'); auto. }
  assert (P : forall A1 A2 : coo V, Permutation (elems A1) (elems A2) -> cm A2 = cm A1 -> valid_coo A1 -> valid_coo A2).
  { intros A1 A2 Pm Mm [ND H]. split.
    - eapply Permutation_NoDup; [apply Permutation_map; eauto|auto].
    - intros k v Iv. rewrite Mm. apply (H k v). eapply Permutation_in; [apply Permutation_sym; eauto|auto]. }
  destruct St; cbn [op_in] in I; auto.
  - destruct (coo_read_spec v0 A i j) as [[L E]|[L [A' [E [Mm [F [O [ND K]]]]]]]]; [congruence|].
    rewrite H in E; inversion E; subst A' v. split; [|congruence]. eapply P; eauto.
  - destruct (coo_modify_spec v0 A i j (fun _ => v)) as [[L E]|[L [A' [E [Mm [F [O [ND K]]]]]]]]; [congruence|].
    rewrite H in E; inversion E; subst A'. split; [|congruence]. eapply P; eauto.
Qed.

Lemma reachable_valid : forall ops n A outs, Forall (op_in n) ops -> crun v0 (coo_new V n) ops A outs -> valid_coo A /\ cm A = n.
Proof.
  intros ops n A outs. assert (G : forall A0, valid_coo A0 -> cm A0 = n -> Forall (op_in n) ops -> crun v0 A0 ops A outs -> valid_coo A /\ cm A = n).
  { revert outs. induction ops as [|op ops IH]; intros outs A0 W M F R; inversion R; subst; auto.
    inversion F; subst. destruct (step_valid (cm A0) A0 A2 op out H2 H1 eq_refl W) as [W1 M1].
    apply (IH outs0 A2); auto. }
  intros F R. apply (G (coo_new V n)); auto. split; [constructor|]. intros k v [].
Qed.
End B.

Local Open Scope R_scope.

Lemma built : forall A : coo R, valid_coo A -> fits A -> all_diag_touched A ->
  exists C : csr R, csr_build 0 A = Ok C /\ wf_csr C /\ m C = cm A /\
    forall i j, (i < cm A)%nat -> (j < cm A)%nat -> ent C i j = value 0 A i j.
Proof.
  intros A W F D. pose proof (valid_in_range A W (fits_cm A F)) as R. destruct (lossless 0 A W F D) as [C [E [M [N At]]]].
  destruct F as [F1 F2]. destruct W as [ND _].
  destruct (csr_build_ok 0 A F1 F2 R ND D) as [C' [E' [W' _]]]. rewrite E in E'; inversion E'; subst C'.
  exists C. split; auto. split; auto. split; auto. intros i j Hi Hj.
  pose proof (At i j Hi Hj) as Q. rewrite csr_at_ent in Q by (rewrite ?M; auto). inversion Q; auto.
Qed.

Lemma sym_product : forall (A : coo R) (r x : list R), valid_coo A -> fits A -> all_diag_touched A ->
  length r = cm A -> length x = cm A ->
  exists (C : csr R) (y : list R), csr_build 0 A = Ok C /\ mult_sym ROps r C x = Ok y /\ length y = cm A /\
    forall i, (i < cm A)%nat -> vget y i = sumn (cm A) (fun j => value 0 A i j * vget x j).
Proof.
  intros A r x W F D Lr Lx. destruct (built A W F D) as [C [E [Wc [M En]]]].
  destruct (mult_sym_ok C r x Wc) as [y [Ey [Ly Vy]]]; try congruence.
  exists C, y. split; auto. split; auto. split; [congruence|]. intros i Hi. rewrite M in *. rewrite Vy by auto. apply sumn_ext; intros j Hj. rewrite En; auto.
Qed.

Lemma tri_products : forall (A : coo R) (r x : list R), valid_coo A -> fits A -> all_diag_touched A ->
  length r = cm A -> length x = cm A ->
  exists (C : csr R) (u l : list R), csr_build 0 A = Ok C /\
    mult_upper ROps r C x = Ok u /\ mult_lower ROps r C x = Ok l /\ length u = cm A /\ length l = cm A /\
    (forall i, (i < cm A)%nat -> vget u i = sumn (cm A) (fun j => if Nat.leb i j then value 0 A i j * vget x j else 0)) /\
    (forall i, (i < cm A)%nat -> vget l i = sumn (cm A) (fun j => if Nat.leb j i then value 0 A i j * vget x j else 0)).
Proof.
  intros A r x W F D Lr Lx. destruct (built A W F D) as [C [E [Wc [M En]]]].
  destruct (mult_upper_ok C r x Wc) as [u [Eu [Lu Vu]]]; try congruence.
  destruct (mult_lower_ok C r x Wc) as [l [El [Ll Vl]]]; try congruence.
  exists C, u, l. rewrite M in *. split; auto. split; auto. split; auto. split; auto. split; auto.
  split; intros i Hi; [rewrite Vu by auto|rewrite Vl by auto]; apply sumn_ext; intros j Hj; rewrite En; auto.
Qed.

Lemma tri_adjoint : forall (A : coo R) (C : csr R) (r x z u l : list R), valid_coo A -> fits A -> all_diag_touched A ->
  length r = cm A -> length x = cm A -> length z = cm A -> csr_build 0 A = Ok C ->
  mult_upper ROps r C x = Ok u -> mult_lower ROps r C z = Ok l -> dotR u z = dotR x l.
Proof.
  intros A C r x z u l W F D Lr Lx Lz E Eu El.
  destruct (tri_products A r x W F D Lr Lx) as [C1 [u1 [l1 [E1 [Eu1 [_ [Lu [_ [Vu _]]]]]]]]].
  destruct (tri_products A r z W F D Lr Lz) as [C2 [u2 [l2 [E2 [_ [El2 [_ [Ll [_ Vl]]]]]]]]].
  rewrite E in E1, E2; inversion E1; inversion E2; subst C1 C2. rewrite Eu in Eu1; rewrite El in El2. inversion Eu1; inversion El2; subst u1 l2.
  unfold dotR. rewrite Lu, Lx.
  rewrite (sumn_ext (cm A) _ (fun i => sumn (cm A) (fun j => if Nat.leb i j then value 0 A i j * vget x j * vget z i else 0))).
  - rewrite sumn_exchange. apply sumn_ext. intros j Hj. rewrite Vl by auto. rewrite <- sumn_scal. apply sumn_ext. intros i Hi.
    destruct (Nat.leb i j); [|ring]. assert (S : value 0 A i j = value 0 A j i) by (unfold value; rewrite Nat.min_comm, Nat.max_comm; auto). rewrite S. ring.
  - intros i Hi. rewrite Vu by auto. rewrite <- sumn_scal_r. apply sumn_ext. intros j Hj. destruct (Nat.leb i j); ring.
Qed.

Lemma tri_sum : forall (A : coo R) (C : csr R) (r x y u l : list R), valid_coo A -> fits A -> all_diag_touched A ->
  length r = cm A -> length x = cm A -> csr_build 0 A = Ok C -> mult_sym ROps r C x = Ok y ->
  mult_upper ROps r C x = Ok u -> mult_lower ROps r C x = Ok l ->
  forall i, (i < cm A)%nat -> vget y i = vget l i + vget u i - value 0 A i i * vget x i.
Proof.
  intros A C r x y u l W F D Lr Lx E Ey Eu El i Hi.
  destruct (tri_products A r x W F D Lr Lx) as [C1 [u1 [l1 [E1 [Eu1 [El1 [Lu [Ll [Vu Vl]]]]]]]]].
  destruct (sym_product A r x W F D Lr Lx) as [C2 [y2 [E2 [Ey2 [Ly Vy]]]]].
  rewrite E in E1, E2; inversion E1; inversion E2; subst C1 C2. rewrite Eu in Eu1; rewrite El in El1; rewrite Ey in Ey2. inversion Eu1; inversion El1; inversion Ey2; subst u1 l1 y2.
  rewrite Vy, Vu, Vl by auto. rewrite <- (sumn_delta (cm A) i (fun j => value 0 A i j * vget x j)) by auto.
  rewrite <- sumn_plus, <- sumn_minus. apply sumn_ext. intros j Hj.
  destruct (Nat.leb_spec i j), (Nat.leb_spec j i), (Nat.eqb_spec j i); subst; try lia; ring.
Qed.

Lemma dotR_scal_l : forall (a : R) (x y z : list R), length z = length x -> (forall i, (i < length x)%nat -> vget z i = a * vget x i) -> dotR z y = a * dotR x y.
Proof. intros a x y z L H. unfold dotR. rewrite L, <- sumn_scal. apply sumn_ext. intros i Hi. rewrite H by auto. ring. Qed.
Lemma dotR_scal_r : forall (a : R) (x y z : list R), length z = length x -> length y = length x -> (forall i, (i < length x)%nat -> vget z i = a * vget x i) -> dotR y z = a * dotR y x.
Proof. intros a x y z L Ly H. unfold dotR. rewrite Ly, <- sumn_scal. apply sumn_ext. intros i Hi. rewrite H by auto. ring. Qed.
Lemma norm_scal : forall (a : R) (x z : list R), length z = length x -> (forall i, (i < length x)%nat -> vget z i = a * vget x i) ->
  sqrt (dotR z z) = Rabs a * sqrt (dotR x x).
Proof.
  intros a x z L H. rewrite (dotR_scal_l a x z z), (dotR_scal_r a x x z) by auto.
  rewrite <- Rmult_assoc. change (a * a) with (Rsqr a). rewrite sqrt_mult by (try apply Rle_0_sqr; apply dotR_nonneg). rewrite sqrt_Rsqr_abs; auto.
Qed.

(** ** Systems *)
Lemma valid_wf : forall V (S : system V), valid_system S -> wf_sys V S.
Proof.
  intros V S [W [M U]]. split; [apply W|split; [|split; auto]]. rewrite <- M. apply valid_in_range; auto. rewrite M; auto.
Qed.
Lemma wf_valid : forall V (S : system V), wf_sys V S -> valid_system S.
Proof.
  intros V S [ND [R [U M]]]. split; [split; auto|auto]. intros k v I. unfold in_range in R. rewrite Forall_forall in R.
  destruct (R _ I) as [[i [j [Ui [Uj [L E]]]]] K]. cbn [fst] in *. exists i, j. split; auto. split; auto. subst k. rewrite kcol_key in K by auto. lia.
Qed.

Lemma dirichlet_solutions_v : forall (S : rsys) (id : nat) (v : R), valid_system S -> (id < sdim S)%nat ->
  exists S', dDirichlet ROps S id v = Ok S' /\ valid_system S' /\ sdim S' = sdim S /\
    forall x, solves S' x <-> (x id = v /\ forall i, (i < sdim S)%nat -> i <> id -> row_eq S x i).
Proof.
  intros S id v W H. destruct (dirichlet_solutions S id v (valid_wf _ _ W) H) as [S' [E [L Sol]]].
  destruct (dDirichlet_ok S id v (valid_wf _ _ W) H) as [S'' [E' [W' _]]]. rewrite E in E'; inversion E'; subst S''.
  exists S'. split; auto. split; [apply wf_valid; auto|]. auto.
Qed.
Lemma dirichlet_posdef_v : forall (S S' : rsys) (id : nat) (v : R), valid_system S -> (id < sdim S)%nat ->
  dDirichlet ROps S id v = Ok S' -> posdef (sdim S) (value 0 (sA R S)) -> posdef (sdim S') (value 0 (sA R S')).
Proof. intros S S' id v W H E P. exact (dirichlet_posdef S id v S' (valid_wf _ _ W) H E P). Qed.
Lemma dirichlet_oob_v : forall (o : Ops) (S : dsystem o) (id : nat) (v : T o), valid_system S -> (length (sb _ S) <= id)%nat -> is_u32 id ->
  is_ub (dDirichlet o S id v).
Proof. intros o S id v W H U. apply addDirichlet_oob; auto. apply valid_wf; auto. Qed.
Lemma dirichlet_perm_v : forall (S : rsys) (l1 l2 : list (nat * R)), valid_system S -> NoDup (map fst l1) ->
  (forall id v, In (id, v) l1 -> (id < sdim S)%nat) -> Permutation l1 l2 ->
  exists A B, dirichlet_all S l1 = Ok A /\ dirichlet_all S l2 = Ok B /\ same_system A B.
Proof.
  intros S l1 l2 W ND F P. apply dirichlet_all_perm; auto; [apply valid_wf; auto|].
  rewrite Forall_forall. intros [id v] I. cbn. eapply F; eauto.
Qed.
Lemma dirichlet_all_v : forall (S : rsys) (l : list (nat * R)), valid_system S -> NoDup (map fst l) ->
  (forall id v, In (id, v) l -> (id < sdim S)%nat) ->
  exists S', dirichlet_all S l = Ok S' /\ sdim S' = sdim S /\
    forall x, solves S' x <-> ((forall id v, In (id, v) l -> x id = v) /\
                               forall i, (i < sdim S)%nat -> ~ In i (map fst l) -> row_eq S x i).
Proof.
  intros S l W ND F. apply dirichlet_all_solutions; auto; [apply valid_wf; auto|].
  rewrite Forall_forall. intros [id v] I. cbn. eapply F; eauto.
Qed.
Lemma dirichlet_idem_v : forall (S : rsys) (id : nat) (v : R), valid_system S -> (id < sdim S)%nat ->
  exists S1 S2, dDirichlet ROps S id v = Ok S1 /\ dDirichlet ROps S1 id v = Ok S2 /\ same_system S2 S1.
Proof. intros S id v W H. apply dirichlet_idempotent; auto. apply valid_wf; auto. Qed.
Lemma dirichlet_hash_v : forall (o : Ops) (A1 A2 : coo (T o)) (b : list (T o)) (id : nat) (v : T o),
  valid_system (mkSys (T o) A1 b) -> (id < length b)%nat -> Permutation (elems A1) (elems A2) -> cm A2 = cm A1 ->
  exists S1 S2, dDirichlet o (mkSys (T o) A1 b) id v = Ok S1 /\ dDirichlet o (mkSys (T o) A2 b) id v = Ok S2 /\ sys_equiv S1 S2.
Proof. intros o A1 A2 b id v W H P M. apply (addDirichlet_order o (T o)); auto. apply valid_wf; auto. Qed.
Lemma dirichlet_reset_v : forall (S : rsys) (id : nat) (v1 v2 : R), valid_system S -> (id < sdim S)%nat ->
  exists S2 S', (S1 <- dDirichlet ROps S id v1 ;; dDirichlet ROps S1 id v2) = Ok S2 /\
    dDirichlet ROps S id v2 = Ok S' /\
    (same_system S2 S' <-> (forall i, (i < sdim S)%nat -> i <> id -> value 0 (sA R S) i id * (v1 - v2) = 0)).
Proof. intros S id v1 v2 W H. exact (dirichlet_reset S id v1 v2 (valid_wf _ _ W) H). Qed.
Lemma dirichlet_reset_sol_v : forall (S : rsys) (id : nat) (v1 v2 : R), valid_system S -> (id < sdim S)%nat ->
  exists S2, (S1 <- dDirichlet ROps S id v1 ;; dDirichlet ROps S1 id v2) = Ok S2 /\ sdim S2 = sdim S /\
    forall x, solves S2 x <-> (x id = v2 /\ forall i, (i < sdim S)%nat -> i <> id -> 
        row_eq S (fun j => if Nat.eqb j id then v1 else x j) i).
Proof.
  intros S id v1 v2 W H. apply valid_wf in W.
  destruct (dDirichlet_ok S id v1 W H) as [A [EA [WA [LA [NA BA]]]]].
  destruct (dirichlet_solutions A id v2 WA ltac:(rewrite LA; auto)) as [S2 [E2 [L2 Sol]]].
  exists S2. rewrite EA; cbn [bind]. split; auto. split; [congruence|]. intros x. rewrite Sol, LA.
  assert (RW : forall i, (i < sdim S)%nat -> i <> id -> (row_eq A x i <-> row_eq S (fun j => if Nat.eqb j id then v1 else x j) i)).
  { intros i Hi NE. unfold row_eq; fsent. rewrite LA, BA by auto. apply Nat.eqb_neq in NE as NE'. rewrite NE'.
    assert (Q : sumn (sdim S) (fun j => sent S i j * (if Nat.eqb j id then v1 else x j)) = sumn (sdim S) (fun j => sent A i j * x j) + sent S i id * v1).
    { rewrite <- (sumn_delta (sdim S) id (fun j => sent S i j * v1)) by auto. rewrite <- sumn_plus. apply sumn_ext. intros j Hj.
      rewrite NA by auto. rewrite NE'. destruct (Nat.eqb_spec j id); ring. }
    rewrite Q. split; intros; lra. }
  split; intros [Hx HR]; split; auto; intros i Hi NE; apply RW; auto.
Qed.
Lemma ncsr_evaluate_v : forall (A : coo rexpr) (mu : list R), valid_coo A -> fits A -> all_diag_touched A ->
  (forall k e, In (k, e) (elems A) -> ne_ok e mu) ->
  exists C : csr R, csr_build 0 (coo_eval A mu) = Ok C /\
    (exists M0, ncsr_build ROps A = Ok M0) /\
    forall M, ncsr_reach A M -> exists M', ncsr_evaluate ROps A M mu = Ok M' /\ ncsr_csr ROps M' = C.
Proof.
  intros A mu W F D OK. pose proof (valid_in_range A W (fits_cm A F)) as R. destruct F as [F1 F2]. destruct W as [ND _].
  apply ncsr_evaluate_spec; auto.
Qed.
Lemma nDirichlet_v : forall (S : nsystem ROps) (id : nat) (v : R) (mu : list R),
  valid_system S -> (id < length (sb _ S))%nat -> sys_ok S mu ->
  exists S' D, nDirichlet ROps S id v = Ok S' /\ valid_system S' /\ sys_ok S' mu /\
    dDirichlet ROps (sys_eval S mu) id v = Ok D /\ same_system (sys_eval S' mu) D.
Proof.
  intros S id v mu W H K. destruct (nDirichlet_eval S id v mu (valid_wf _ _ W) H K) as [S' [D [E [W' [K' [E2 Q]]]]]].
  exists S', D. split; auto. split; [apply wf_valid; auto|auto].
Qed.

(** ** Kernels *)
Section K.
Variable o : Ops.
Notation T := (T o).
Lemma k2 : forall f g st r a b, (length (st a) <= length (st b))%nat -> (length (st a) <= length (st r))%nat ->
  (forall x y, f x y = Ok (g x y)) -> exists st', kernel2 o f st r a b = Ok st' /\ pointwise2 o st st' r a b g.
Proof. intros f g st r a b H1 H2 Hf. destruct (kernel2_ok o f g st r a b H1 H2) as [st' [E P]]; [auto|]. exists st'; split; auto. Qed.
Lemma k1 : forall f g st r a, (length (st a) <= length (st r))%nat ->
  (forall x, f x = Ok (g x)) -> exists st', kernel1 o f st r a = Ok st' /\ pointwise1 o st st' r a g.
Proof. intros f g st r a H1 Hf. destruct (kernel1_ok o f g st r a H1) as [st' [E P]]; [auto|]. exists st'; split; auto. Qed.

Lemma kernels_ok : forall (st : store o) r a b (d : T),
  (length (st a) <= length (st b))%nat -> (length (st a) <= length (st r))%nat ->
  (exists st', v_add o st r a b = Ok st' /\ pointwise2 o st st' r a b (add o)) /\
  (exists st', v_sub o st r a b = Ok st' /\ pointwise2 o st st' r a b (sub o)) /\
  (exists st', v_mult o st r a b = Ok st' /\ pointwise2 o st st' r a b (mul o)) /\
  (exists st', v_addScaled o st r a d b = Ok st' /\ pointwise2 o st st' r a b (fun x y => add o x (mul o d y))) /\
  (exists st', v_scale o st r d a = Ok st' /\ pointwise1 o st st' r a (mul o d)) /\
  (exists st', v_adds o st r a d = Ok st' /\ pointwise1 o st st' r a (fun x => add o x d)) /\
  (exists st', v_subs o st r a d = Ok st' /\ pointwise1 o st st' r a (fun x => sub o x d)) /\
  (exists st', v_copy o st r a = Ok st' /\ pointwise1 o st st' r a (fun x => x)).
Proof.
  intros st r a b d H1 H2. repeat split; first [apply k2; auto | apply k1; auto].
Qed.
Lemma kernels_div_ok : forall (st : store o) r a b (d : T) (g : T -> T -> T),
  (length (st a) <= length (st b))%nat -> (length (st a) <= length (st r))%nat ->
  ((forall i x y, nth_error (st a) i = Some x -> nth_error (st b) i = Some y -> div o x y = Ok (g x y)) ->
    exists st', v_div o st r a b = Ok st' /\ pointwise2 o st st' r a b g) /\
  ((forall i x, nth_error (st a) i = Some x -> div o x d = Ok (g x d)) ->
    exists st', v_divs o st r a d = Ok st' /\ pointwise1 o st st' r a (fun x => g x d)).
Proof.
  intros st r a b d g H1 H2. split; intros Hd.
  - destruct (kernel2_ok o (fun x y => div o x y) g st r a b H1 H2) as [st' [E P]]; [intros; eapply Hd; eauto|]. exists st'; split; auto.
  - destruct (kernel1_ok o (fun x => div o x d) (fun x => g x d) st r a H2) as [st' [E P]]; [intros; eapply Hd; eauto|]. exists st'; split; auto.
Qed.
Lemma kernels_ub : forall (st : store o) r a b (d : T),
  (length (st b) < length (st a))%nat \/ (length (st r) < length (st a))%nat ->
  is_ub (v_add o st r a b) /\ is_ub (v_sub o st r a b) /\ is_ub (v_mult o st r a b) /\ is_ub (v_addScaled o st r a d b).
Proof. intros st r a b d H. repeat split; (eapply kernel2_ub; [exact H|intros; reflexivity]). Qed.
Lemma kernels1_ub : forall (st : store o) r a (d : T), (length (st r) < length (st a))%nat ->
  is_ub (v_scale o st r d a) /\ is_ub (v_adds o st r a d) /\ is_ub (v_subs o st r a d) /\ is_ub (v_copy o st r a).
Proof. intros st r a d H. repeat split; (eapply kernel1_ub; [exact H|intros; reflexivity]). Qed.
End K.
