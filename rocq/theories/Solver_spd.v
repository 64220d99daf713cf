(** Behaviour of the solver loops on symmetric positive definite matrices, in exact arithmetic. *)
From Coq Require Import String.
From Coq Require Import List Arith ZArith NArith Bool Lia Reals Lra.
From Verif Require Import Base AlgebraModel AlgebraSpec Csr_proofs SumR Mult_proofs Vec_proofs SolversModel Safe_proofs Ssor_proofs Pcg_theory Solver_proofs.
Import ListNotations.
Local Open Scope R_scope.

Lemma quad_dotn : forall n a x, quad n a x = dotn n x (am n a x).
Proof.
  intros. unfold quad, dotn, am. apply sumn_ext. intros i Hi. rewrite <- sumn_scal. apply sumn_ext; intros; ring.
Qed.
Lemma posdef_dotn : forall n a, posdef n a -> forall x, (exists i, (i < n)%nat /\ x i <> 0) -> 0 < dotn n x (am n a x).
Proof. intros n a H x Hx. rewrite <- quad_dotn. apply H; auto. Qed.

Section Spd.
Variable C : rcsr.
Notation n := (m C).
Notation a := (ent C).
Hypothesis PD : posdef (m C) (ent C).
Let Asym : forall i j, (i < n)%nat -> (j < n)%nat -> a i j = a j i := fun i j _ _ => ent_sym C i j.
Let Apos := posdef_dotn n a PD.

Variable f : list R -> res (list R).
Variable K : R.
Hypothesis K_pos : 0 < K.
Hypothesis K_small : K <= 2 ^ 52.
Hypothesis f_ok : forall r : list R, length r = n -> exists z : list R, f r = Ok z /\ length z = n.
Hypothesis f_sym : forall r s zr zs : list R, length r = n -> length s = n -> f r = Ok zr -> f s = Ok zs -> dotn n (vget r) (vget zs) = dotn n (vget s) (vget zr).
Hypothesis f_pos : forall r z : list R, length r = n -> f r = Ok z -> 0 < dotn n (vget r) (vget r) -> 0 < dotn n (vget r) (vget z).
Hypothesis f_bound : forall r z : list R, length r = n -> f r = Ok z -> dotn n (vget z) (am n a (vget z)) <= K * dotn n (vget r) (vget z).

Definition Inv (k : nat) (r z p : list R) : Prop :=
  length r = n /\ length z = n /\ length p = n /\
  exists rs zs ps bt al, Hist n a k rs zs ps bt al /\
    (forall c, (c < n)%nat -> rs k c = vget r c) /\ (forall c, (c < n)%nat -> zs k c = vget z c) /\ (forall c, (c < n)%nat -> ps k c = vget p c) /\
    (forall i, (i <= k)%nat -> exists l lz : list R, length l = n /\ (forall c, (c < n)%nat -> rs i c = vget l c) /\ f l = Ok lz /\ (forall c, (c < n)%nat -> zs i c = vget lz c)).

Lemma amul_vget : forall p c, (c < n)%nat -> vget (amul C p) c = am n a (vget p) c.
Proof. intros; unfold amul. apply vget_mk; auto. Qed.
Lemma vadd_vget : forall x t p c, length x = n -> (c < n)%nat -> vget (vadd x t p) c = vget x c + t * vget p c.
Proof. intros; unfold vadd. apply vget_mk; lia. Qed.
Lemma pAp_dotn : forall p, length p = n -> dotR p (amul C p) = dotn n (vget p) (am n a (vget p)).
Proof. intros p L. rewrite (dotR_dotn _ _ n L). apply dotn_ext; auto. intros; apply amul_vget; auto. Qed.

Lemma inv_start : forall r z, length r = n -> f r = Ok z -> dotR r r <> 0 -> Inv 0 r z z.
Proof.
  intros r z Lr E NZ. destruct (f_ok r Lr) as [z2 [E2 Lz]]. rewrite E in E2; inversion E2; subst z2.
  assert (P : 0 < dotn n (vget r) (vget r)).
  { rewrite (dotR_dotn _ _ n Lr) in NZ. pose proof (dotn_nonneg n (vget r)). lra. }
  split; auto. split; auto. split; auto. exists (fun _ => vget r), (fun _ => vget z), (fun _ => vget z), (fun _ => 0), (fun _ => 1).
  split; [|split; auto; split; auto; split; auto; intros i Hi; exists r, z; auto].
  constructor; intros; auto; try lia.
Qed.

(** facts about one iteration *)
Lemma inv_facts : forall k r z p, Inv k r z p ->
  0 < dotR r z /\ 0 < dotR p (amul C p) /\ dotn n (vget r) (vget p) = dotR r z.
Proof.
  intros k r z p [Lr [Lz [Lp [rs [zs [ps [bt [al [HH [Hr [Hz [Hp Hl]]]]]]]]]]]].
  assert (RZ : dotR r z = dotn n (rs k) (zs k)) by (rewrite (dotR_dotn _ _ n Lr); apply dotn_ext; intros; symmetry; auto).
  assert (PP : dotR p (amul C p) = dotn n (ps k) (am n a (ps k))).
  { rewrite pAp_dotn by auto. apply dotn_ext; intros; [symmetry; auto|]. apply am_ext. intros; symmetry; auto. }
  pose proof (h_pos _ _ _ _ _ _ _ _ HH k (le_n k)) as P1.
  pose proof (h_pApk n a k rs zs ps bt al HH Apos) as P2.
  split; [lra|]. split; [lra|].
  rewrite RZ, <- (h_rpk n a k rs zs ps bt al HH). apply dotn_ext; intros; symmetry; auto.
Qed.
Lemma inv_clamp : forall k r z p, Inv k r z p ->
  clampR (dotR r z / dotR p (amul C p)) = dotR r z / dotR p (amul C p).
Proof.
  intros k r z p [Lr [Lz [Lp [rs [zs [ps [bt [al [HH [Hr [Hz [Hp Hl]]]]]]]]]]]].
  assert (RZ : dotR r z = dotn n (rs k) (zs k)) by (rewrite (dotR_dotn _ _ n Lr); apply dotn_ext; intros; symmetry; auto).
  assert (PP : dotR p (amul C p) = dotn n (ps k) (am n a (ps k))).
  { rewrite pAp_dotn by auto. apply dotn_ext; intros; [symmetry; auto|]. apply am_ext. intros; symmetry; auto. }
  pose proof (h_pos _ _ _ _ _ _ _ _ HH k (le_n k)) as P1.
  pose proof (h_pApk n a k rs zs ps bt al HH Apos) as P2.
  pose proof (h_zAz n a k rs zs ps bt al HH Apos) as P3.
  unfold clampR. destruct (Rltb _ _) eqn:B; auto. exfalso. apply Rltb_true in B.
  destruct (Hl k (le_n k)) as [l [lz [Ll [El [Ef Ez]]]]].
  pose proof (f_bound l lz Ll Ef) as FB.
  assert (FB' : dotn n (zs k) (am n a (zs k)) <= K * dotn n (rs k) (zs k)).
  { rewrite (dotn_ext n (zs k) (vget lz) (am n a (zs k)) (am n a (vget lz))); auto; [|intros; apply am_ext; auto].
    rewrite (dotn_ext n (rs k) (vget l) (zs k) (vget lz)); auto. }
  rewrite RZ, PP in B. set (rz := dotn n (rs k) (zs k)) in *. set (pp := dotn n (ps k) (am n a (ps k))) in *.
  assert (0 < rz / pp) by (apply Rdiv_lt_0_compat; auto). rewrite Rabs_right in B by lra.
  assert (pp <= K * rz) by lra.
  assert (E1 : rz = rz / pp * pp) by (field; lra).
  assert (I1 : 0 < / 2 ^ 52) by (apply Rinv_0_lt_compat; lra).
  assert (rz / pp * pp < / 2 ^ 52 * pp) by (apply Rmult_lt_compat_r; auto).
  assert (/ 2 ^ 52 * pp <= / 2 ^ 52 * (K * rz)) by (apply Rmult_le_compat_l; lra).
  assert (/ 2 ^ 52 * (K * rz) <= / 2 ^ 52 * (2 ^ 52 * rz)) by (apply Rmult_le_compat_l; [lra|]; apply Rmult_le_compat_r; lra).
  assert (/ 2 ^ 52 * (2 ^ 52 * rz) = rz) by (field; lra). lra.
Qed.

Lemma inv_step : forall k r z p, Inv k r z p ->
  let alpha := dotR r z / dotR p (amul C p) in
  let r' := vadd r (- alpha) (amul C p) in
  dotR r' r' <> 0 ->
  exists z', f r' = Ok z' /\ length z' = n /\ Inv (S k) r' z' (vadd z' (dotR r' z' / dotR r z) p).
Proof.
  intros k r z p I alpha r' NZ. pose proof (inv_facts k r z p I) as [P1 [P2 _]].
  destruct I as [Lr [Lz [Lp [rs [zs [ps [bt [al [HH [Hr [Hz [Hp Hl]]]]]]]]]]]].
  assert (RZ : dotR r z = dotn n (rs k) (zs k)) by (rewrite (dotR_dotn _ _ n Lr); apply dotn_ext; intros; symmetry; auto).
  assert (PP : dotR p (amul C p) = dotn n (ps k) (am n a (ps k))).
  { rewrite pAp_dotn by auto. apply dotn_ext; intros; [symmetry; auto|]. apply am_ext. intros; symmetry; auto. }
  assert (Lr' : length r' = n) by (unfold r'; lens).
  destruct (f_ok r' Lr') as [z' [Ez Lz']]. exists z'. split; auto. split; auto.
  split; auto. split; auto. split; [lens|].
  set (beta := dotR r' z' / dotR r z).
  exists (ext k rs (vget r')), (ext k zs (vget z')), (ext k ps (vget (vadd z' beta p))), (exts k bt beta), (exts k al alpha).
  assert (N : forall g v, ext k g v (S k) = v) by (intros; unfold ext; rewrite Nat.eqb_refl; auto).
  split; [|split; [intros; rewrite N; auto|split; [intros; rewrite N; auto|split; [intros; rewrite N; auto|]]]].
  - apply hist_extend; auto.
    + unfold alpha. rewrite RZ, PP. auto.
    + intros c Hc. unfold r'. rewrite vadd_vget, amul_vget by auto. rewrite Hr by auto. f_equal. f_equal. apply am_ext. intros; symmetry; auto.
    + unfold beta. rewrite RZ, (dotR_dotn _ _ n Lr'). auto.
    + intros c Hc. rewrite vadd_vget by auto. rewrite Hp by auto. auto.
    + intros i Hi. destruct (Hl i Hi) as [l [lz [Ll [El [Ef Ezi]]]]].
      rewrite (dotn_ext n (rs i) (vget l) (vget z') (vget z')) by auto. rewrite (dotn_ext n (vget r') (vget r') (zs i) (vget lz)) by auto.
      apply (f_sym l r' lz z'); auto.
    + apply (f_pos r' z'); auto. rewrite (dotR_dotn _ _ n Lr') in NZ. pose proof (dotn_nonneg n (vget r')). lra.
  - intros i Hi. unfold ext. destruct (Nat.eqb_spec i (S k)) as [->|NE].
    + exists r', z'. auto.
    + apply Hl; lia.
Qed.

(** *** The whole loop *)
Lemma gl_completes : forall e, e <> 0 -> forall N i k (x r z p : list R), Inv k r z p ->
  exists q, gl f C e N i x r z p = Ok q /\ (snd q = None -> (S (k + N) <= n)%nat).
Proof.
  intros e He; induction N as [|N IH]; intros i k x r z p I; cbn [gl].
  - eexists; split; [reflexivity|]. intros _. destruct I as [_ [_ [_ [rs [zs [ps [bt [al [HH _]]]]]]]]].
    pose proof (hist_dim n a k rs zs ps bt al HH). lia.
  - pose proof (inv_facts k r z p I) as [P1 [P2 P3]]. pose proof (inv_clamp k r z p I) as P4.
    rewrite Rdivr_ok by lra. cbn [bind]. cbv zeta. rewrite P4.
    set (alpha := dotR r z / dotR p (amul C p)) in *. set (r' := vadd r (- alpha) (amul C p)).
    destruct (Rltb (dotR r' r') (e * e)) eqn:B; [eexists; split; [reflexivity|]; cbn; discriminate|].
    apply Rltb_false in B. assert (NZ : dotR r' r' <> 0).
    { pose proof (Rsqr_pos_lt e He) as Q. unfold Rsqr in Q. lra. }
    destruct (inv_step k r z p I NZ) as [z' [Ez [Lz' I']]]. fold alpha in Ez, I'. fold r' in Ez, I'.
    rewrite Ez. cbn [bind]. rewrite Rdivr_ok by lra. cbn [bind].
    destruct (IH (S i) (S k) (vadd x alpha p) r' z' _ I') as [q [Eq Hq]]. exists q; split; auto. intros HN. specialize (Hq HN). lia.
Qed.

(** one more iteration strictly decreases the energy of the error *)
Lemma step_energy : forall (b xs : list R) k x r z p, Inv k r z p -> length x = n -> is_res C b x r ->
  (forall i, (i < n)%nat -> am n a (vget xs) i = vget b i) ->
  energy n a (vget (vadd x (dotR r z / dotR p (amul C p)) p)) (vget xs) < energy n a (vget x) (vget xs).
Proof.
  intros b xs k x r z p I Lx HR Hxs. pose proof (inv_facts k r z p I) as [P1 [P2 P3]]. destruct I as [Lr [Lz [Lp _]]].
  rewrite (energy_step n a Asym (vget x) (vget xs) (vget p) (vget r) (dotR r z / dotR p (amul C p))).
  - rewrite P3, <- pAp_dotn by auto. set (rz := dotR r z) in *. set (pp := dotR p (amul C p)) in *.
    assert (E : energy n a (vget x) (vget xs) - 2 * (rz / pp) * rz + rz / pp * (rz / pp) * pp = energy n a (vget x) (vget xs) - rz * (rz / pp)) by (field; lra).
    rewrite E. assert (0 < rz / pp) by (apply Rdiv_lt_0_compat; auto). assert (0 < rz * (rz / pp)) by (apply Rmult_lt_0_compat; auto). lra.
  - intros i Hi. rewrite HR by auto. unfold resid. rewrite Hxs by auto. auto.
  - intros i Hi. apply vadd_vget; auto.
Qed.

Lemma gl_energy : forall e (b xs : list R), e <> 0 -> (forall i, (i < n)%nat -> am n a (vget xs) i = vget b i) ->
  forall N i k (x r z p : list R) x1, Inv k r z p -> length x = n -> is_res C b x r ->
  gl f C e N i x r z p = Ok (x1, None) ->
  exists q, gl f C e (S N) i x r z p = Ok q /\ energy n a (vget (fst q)) (vget xs) < energy n a (vget x1) (vget xs).
Proof.
  intros e b xs He Hxs; induction N as [|N IH]; intros i k x r z p x1 I Lx HR E.
  - cbn [gl] in E. inversion E; subst x1.
    pose proof (inv_facts k r z p I) as [P1 [P2 P3]]. pose proof (inv_clamp k r z p I) as P4. pose proof (step_energy b xs k x r z p I Lx HR Hxs) as SE.
    cbn [gl]. rewrite Rdivr_ok by lra. cbn [bind]. cbv zeta. rewrite P4.
    set (alpha := dotR r z / dotR p (amul C p)) in *. set (r' := vadd r (- alpha) (amul C p)).
    destruct (Rltb (dotR r' r') (e * e)) eqn:B; [eexists; split; [reflexivity|]; cbn; auto|].
    apply Rltb_false in B. assert (NZ : dotR r' r' <> 0) by (pose proof (Rsqr_pos_lt e He) as Q; unfold Rsqr in Q; lra).
    destruct (inv_step k r z p I NZ) as [z' [Ez [Lz' I']]]. fold alpha in Ez. fold r' in Ez.
    rewrite Ez. cbn [bind]. rewrite Rdivr_ok by lra. cbn [bind]. eexists; split; [reflexivity|]. auto.
  - remember (S N) as SN. cbn [gl]. rewrite HeqSN in E. cbn [gl] in E.
    pose proof (inv_facts k r z p I) as [P1 [P2 P3]]. pose proof (inv_clamp k r z p I) as P4.
    rewrite Rdivr_ok in * by lra. cbn [bind] in *. cbv zeta in *. rewrite P4 in *.
    set (alpha := dotR r z / dotR p (amul C p)) in *. set (r' := vadd r (- alpha) (amul C p)) in *.
    destruct (Rltb (dotR r' r') (e * e)) eqn:B; [discriminate|].
    apply Rltb_false in B. assert (NZ : dotR r' r' <> 0) by (pose proof (Rsqr_pos_lt e He) as Q; unfold Rsqr in Q; lra).
    destruct (inv_step k r z p I NZ) as [z' [Ez [Lz' I']]]. fold alpha in Ez, I'. fold r' in Ez, I'.
    rewrite Ez in *. cbn [bind] in *. rewrite Rdivr_ok in * by lra. cbn [bind] in *.
    apply (IH (S i) (S k) (vadd x alpha p) r' z' _ x1 I'); auto; [lens|]. destruct I as [Lr _]. apply res_step; auto.
Qed.
(** once stopped early, a larger limit changes nothing *)
Lemma gl_stopped : forall e N i (x r z p : list R) x1 k, gl f C e N i x r z p = Ok (x1, Some k) ->
  forall N', (N <= N')%nat -> gl f C e N' i x r z p = Ok (x1, Some k).
Proof.
  intros e; induction N as [|N IH]; intros i x r z p x1 k E N' H; [discriminate|]. destruct N' as [|N']; [lia|].
  cbn [gl] in *. destruct (Rdivr _ _) as [alpha|?|?|?]; cbn [bind] in *; try discriminate. cbv zeta in *.
  destruct (Rltb _ _); auto. destruct (f _) as [z'|?|?|?]; cbn [bind] in *; try discriminate.
  destruct (Rdivr (dotR _ z') _) as [beta|?|?|?]; cbn [bind] in *; try discriminate. apply IH; auto; lia.
Qed.
End Spd.

(** ** Plain CG *)
Section Cg.
Variable C : rcsr.
Notation n := (m C).
Notation a := (ent C).
Let Asym : forall i j, (i < n)%nat -> (j < n)%nat -> a i j = a j i := fun i j _ _ => ent_sym C i j.
Definition cpap (p : list R) : R := if Rltb (Rabs (dotR p (amul C p))) (/ 2 ^ 52) then / 2 ^ 52 else dotR p (amul C p).

Lemma eps_pos : 0 < / 2 ^ 52.
Proof. apply Rinv_0_lt_compat; lra. Qed.
Lemma cpap_nz : forall p, cpap p <> 0.
Proof.
  intros p. unfold cpap. pose proof eps_pos. destruct (Rltb _ _) eqn:B; [lra|]. apply Rltb_false in B. intros E. rewrite E, Rabs_R0 in B. lra.
Qed.

(** any matrix: no division by zero *)
Lemma cl_completes : forall e, e <> 0 -> forall N i (x r p : list R), length r = n -> length x = n ->
  exists q, cl C e N i x r p = Ok q.
Proof.
  intros e He; induction N as [|N IH]; intros i x r p Lr Lx; cbn [cl]; [eauto|]. cbv zeta. fold (cpap p).
  rewrite Rdivr_ok by apply cpap_nz. cbn [bind]. set (al := dotR r r / cpap p). set (r' := vadd r (- al) (amul C p)).
  destruct (Rltb (dotR r' r') (e * e)) eqn:B; [eauto|]. apply Rltb_false in B.
  assert (NZ : dotR r r <> 0).
  { intros Z. pose proof (Rsqr_pos_lt e He) as Q. unfold Rsqr in Q.
    assert (A0 : al = 0) by (unfold al; rewrite Z; unfold Rdiv; ring).
    assert (E : dotR r' r' = dotR r r).
    { assert (Lr' : length r' = n) by (unfold r'; lens). rewrite !(dotR_dotn _ _ n) by auto.
      assert (V : forall c, (c < n)%nat -> vget r' c = vget r c) by (intros c Hc; unfold r'; rewrite (vadd_vget C) by auto; rewrite A0; ring).
      apply dotn_ext; auto. }
    lra. }
  rewrite Rdivr_ok by auto. cbn [bind]. apply IH; unfold r'; lens.
Qed.
Lemma cl_stopped : forall e N i (x r p : list R) x1 k, cl C e N i x r p = Ok (x1, Some k) ->
  forall N', (N <= N')%nat -> cl C e N' i x r p = Ok (x1, Some k).
Proof.
  intros e; induction N as [|N IH]; intros i x r p x1 k E N' H; [discriminate|]. destruct N' as [|N']; [lia|].
  cbn [cl] in *. cbv zeta in *. match type of E with bind ?d _ = _ => destruct d as [alpha|?|?|?]; cbn [bind] in *; try discriminate end.
  destruct (Rltb (dotR _ _) (e * e)); auto.
  match type of E with bind ?d _ = _ => destruct d as [beta|?|?|?]; cbn [bind] in *; try discriminate end. apply IH; auto; lia.
Qed.

Hypothesis PD : posdef (m C) (ent C).
Let Apos := posdef_dotn n a PD.
Definition J (b x r p : list R) : Prop :=
  length x = n /\ length r = n /\ length p = n /\ is_res C b x r /\ dotR r r <= dotn n (vget r) (vget p).

Lemma pap_nonneg : forall p, length p = n -> 0 <= dotR p (amul C p).
Proof. intros p L. rewrite pAp_dotn by auto. apply A_nonneg. exact Apos. Qed.
Lemma cpap_ge : forall p, length p = n -> 0 < cpap p /\ dotR p (amul C p) <= cpap p.
Proof.
  intros p L. pose proof (pap_nonneg p L) as P. pose proof eps_pos. unfold cpap. destruct (Rltb _ _) eqn:B.
  - apply Rltb_true in B. rewrite Rabs_right in B by lra. lra.
  - apply Rltb_false in B. rewrite Rabs_right in B by lra. lra.
Qed.

Lemma cg_step : forall b x r p, J b x r p ->
  let al := dotR r r / cpap p in let r' := vadd r (- al) (amul C p) in let x' := vadd x al p in
  (forall xs : list R, (forall i, (i < n)%nat -> am n a (vget xs) i = vget b i) ->
     energy n a (vget x') (vget xs) <= energy n a (vget x) (vget xs) - al * dotR r r) /\
  (0 < dotR r r -> J b x' r' (vadd r' (dotR r' r' / dotR r r) p)).
Proof.
  intros b x r p [Lx [Lr [Lp [HR RP]]]] al r' x'. pose proof (cpap_ge p Lp) as [P1 P2].
  pose proof (dotR_nonneg r) as P3. set (rr := dotR r r) in *. set (pp := cpap p) in *.
  assert (A0 : 0 <= al) by (unfold al; apply Rmult_le_pos; [lra|]; apply Rlt_le, Rinv_0_lt_compat; auto).
  assert (AP : al * pp = rr) by (unfold al; field; lra).
  assert (Lr' : length r' = n) by (unfold r'; lens). assert (Lx' : length x' = n) by (unfold x'; lens).
  split.
  - intros xs Hxs. rewrite (energy_step n a Asym (vget x) (vget xs) (vget p) (vget r) al).
    + rewrite <- pAp_dotn by auto. set (q := dotR p (amul C p)) in *. set (s := dotn n (vget r) (vget p)) in *.
      assert (al * rr <= al * s) by (apply Rmult_le_compat_l; auto).
      assert (al * al * q <= al * al * pp) by (apply Rmult_le_compat_l; auto; apply Rmult_le_pos; auto).
      replace (al * al * pp) with (al * rr) in H0 by (rewrite <- AP; ring). lra.
    + intros i Hi. rewrite HR by auto. unfold resid. rewrite Hxs by auto. auto.
    + intros i Hi. apply (vadd_vget C); auto.
  - intros RR. split; auto. split; auto. split; [lens|]. split; [apply res_step; auto|].
    set (be := dotR r' r' / rr).
    assert (B0 : 0 <= be) by (unfold be; apply Rmult_le_pos; [apply dotR_nonneg|]; apply Rlt_le, Rinv_0_lt_compat; auto).
    rewrite (dotn_ext n (vget r') (vget r') (vget (vadd r' be p)) (fun c => vget r' c + be * vget p c)); auto; [|intros; apply (vadd_vget C); auto].
    rewrite dotn_lin_r, <- (dotR_dotn _ _ n Lr').
    assert (E : dotn n (vget r') (vget p) = dotn n (vget r) (vget p) - al * dotR p (amul C p)).
    { rewrite (dotn_ext n (vget r') (fun c => vget r c + - al * am n a (vget p) c) (vget p) (vget p)); auto.
      - rewrite dotn_lin_l. rewrite pAp_dotn by auto. rewrite (dotn_sym n (am n a (vget p))). ring.
      - intros c Hc. unfold r'. rewrite (vadd_vget C), amul_vget by auto. auto. }
    assert (al * dotR p (amul C p) <= al * pp) by (apply Rmult_le_compat_l; auto).
    assert (0 <= be * dotn n (vget r') (vget p)) by (apply Rmult_le_pos; auto; lra). lra.
Qed.

Lemma cl_energy : forall e (b xs : list R), e <> 0 -> (forall i, (i < n)%nat -> am n a (vget xs) i = vget b i) ->
  forall N i (x r p : list R) x1, J b x r p -> cl C e N i x r p = Ok (x1, None) ->
  exists q, cl C e (S N) i x r p = Ok q /\ energy n a (vget (fst q)) (vget xs) <= energy n a (vget x1) (vget xs) /\
    (0 < resid_sq C b x1 -> energy n a (vget (fst q)) (vget xs) < energy n a (vget x1) (vget xs)).
Proof.
  intros e b xs He Hxs; induction N as [|N IH]; intros i x r p x1 HJ E.
  - cbn [cl] in E. inversion E; subst x1. pose proof HJ as [Lx [Lr [Lp [HR RP]]]].
    destruct (cl_completes e He 1 i x r p Lr Lx) as [q Eq]. exists q. split; auto.
    pose proof (cg_step b x r p HJ) as [SE _]. cbv zeta in SE. specialize (SE xs Hxs).
    assert (FQ : fst q = vadd x (dotR r r / cpap p) p).
    { cbn [cl] in Eq. cbv zeta in Eq. fold (cpap p) in Eq. rewrite Rdivr_ok in Eq by apply cpap_nz. cbn [bind] in Eq.
      destruct (Rltb _ _); [inversion Eq; auto|].
      match type of Eq with bind ?d _ = _ => destruct d as [be|?|?|?]; cbn [bind] in Eq; try discriminate end. inversion Eq; auto. }
    rewrite FQ. pose proof (cpap_ge p Lp) as [P1 P2]. pose proof (dotR_nonneg r) as P3.
    assert (I0 : 0 < / cpap p) by (apply Rinv_0_lt_compat; auto).
    assert (0 <= dotR r r / cpap p * dotR r r) by (apply Rmult_le_pos; auto; apply Rmult_le_pos; lra).
    split; [lra|]. intros RS. rewrite <- (res_sq C b x r Lr HR) in RS.
    assert (0 < dotR r r / cpap p * dotR r r) by (apply Rmult_lt_0_compat; auto; apply Rmult_lt_0_compat; lra). lra.
  - remember (S N) as SN. cbn [cl]. rewrite HeqSN in E. cbn [cl] in E. cbv zeta in *. fold (cpap p) in *.
    rewrite Rdivr_ok in * by apply cpap_nz. cbn [bind] in *.
    destruct (Rltb _ (e * e)) eqn:B; [discriminate|].
    match type of E with bind ?d _ = _ => destruct d as [be|?|?|?] eqn:D; cbn [bind] in *; try discriminate end.
    assert (NZ : dotR r r <> 0) by (intros Z; rewrite Z in D; destruct (Rdivr_zero (dotR (vadd r (- (0 / cpap p)) (amul C p)) (vadd r (- (0 / cpap p)) (amul C p)))) as [w W]; rewrite W in D; discriminate).
    rewrite Rdivr_ok in D by auto. inversion D; subst be.
    pose proof (cg_step b x r p HJ) as [_ SJ]. cbv zeta in SJ. apply (IH (S i) _ _ _ x1); auto. apply SJ. pose proof (dotR_nonneg r). lra.
Qed.

(** *** finite termination, when the clamp cannot fire *)
Notation fid := (fun r : list R => Ok r).
Variable lam e : R.
Hypothesis lam_ok : forall x, lam * dotn n x x <= dotn n x (am n a x).
Hypothesis lam_pos : 0 < lam.
Hypothesis clamp_ok : / 2 ^ 52 <= lam * (e * e).
Lemma e_nz : e <> 0.
Proof. intros Z. rewrite Z in clamp_ok. pose proof eps_pos. lra. Qed.

Lemma fid_pos : forall r z : list R, length r = n -> Ok r = Ok z -> 0 < dotn n (vget r) (vget r) -> 0 < dotn n (vget r) (vget z).
Proof. intros r z L E; inversion E; auto. Qed.
Lemma cl_terminates : forall N i k (x r p : list R), Inv C fid k r r p -> e * e <= dotR r r ->
  exists q, cl C e N i x r p = Ok q /\ (snd q = None -> (S (k + N) <= n)%nat).
Proof.
  induction N as [|N IH]; intros i k x r p I ER; cbn [cl].
  - eexists; split; [reflexivity|]. intros _. destruct I as [_ [_ [_ [rs [zs [ps [bt [al [HH _]]]]]]]]].
    pose proof (hist_dim n a k rs zs ps bt al HH). lia.
  - pose proof (inv_facts C PD fid k r r p I) as [P1 [P2 P3]]. destruct I as [Lr [_ [Lp I]]].
    assert (NC : cpap p = dotR p (amul C p)).
    { unfold cpap. destruct (Rltb _ _) eqn:B; auto. exfalso. apply Rltb_true in B. rewrite Rabs_right in B by lra.
      pose proof (lam_ok (vget p)) as LP. rewrite <- pAp_dotn in LP by auto.
      assert (CS : dotR r r <= dotR p p).
      { pose proof (cauchy_schwarz_sq r p ltac:(congruence)) as CS. rewrite (dotR_dotn r p n Lr), P3 in CS.
        apply (Rmult_le_reg_l (dotR r r)); auto. }
      rewrite (dotR_dotn p p n Lp) in CS.
      assert (lam * (e * e) <= lam * dotn n (vget p) (vget p)) by (apply Rmult_le_compat_l; lra). lra. }
    cbv zeta. fold (cpap p). rewrite Rdivr_ok by apply cpap_nz. rewrite NC. cbn [bind].
    set (alpha := dotR r r / dotR p (amul C p)) in *. set (r' := vadd r (- alpha) (amul C p)).
    destruct (Rltb (dotR r' r') (e * e)) eqn:B; [eexists; split; [reflexivity|]; cbn; discriminate|].
    apply Rltb_false in B. assert (NZ : dotR r' r' <> 0) by (pose proof (Rsqr_pos_lt e e_nz) as Q; unfold Rsqr in Q; lra).
    rewrite Rdivr_ok by lra. cbn [bind].
    assert (I0 : Inv C fid k r r p) by (repeat split; auto).
    destruct (inv_step C PD fid) with (k := k) (r := r) (z := r) (p := p) as [z' [Ez [Lz' I']]]; auto.
    + intros r0 L0. exists r0; auto.
    + intros r0 s zr zs L0 L1 E0 E1. inversion E0; inversion E1; subst. apply dotn_sym.
    + apply fid_pos.
    + inversion Ez; subst z'. fold alpha in I'. fold r' in I'.
      destruct (IH (S i) (S k) (vadd x alpha p) r' _ I' B) as [q [Eq Hq]]. exists q; split; auto. intros HN. specialize (Hq HN). lia.
Qed.
End Cg.
