(** The four conjugate gradient solvers over exact arithmetic (solvers.cpp 84-253). *)
From Coq Require Import String.
From Coq Require Import List Arith ZArith NArith Bool Lia Reals Lra.
From Verif Require Import Base AlgebraModel AlgebraSpec Csr_proofs SumR Mult_proofs Vec_proofs SolversModel Safe_proofs Ssor_proofs Pcg_theory.
Import ListNotations.
Local Open Scope R_scope.

Lemma total_R : total_ops ROps.
Proof.
  split; cbn.
  - intros a b. unfold Rdivr. destruct (Req_EM_T b 0); cbn; auto.
  - intros a. unfold Rsqrtr. destruct (Rlt_dec a 0); cbn; auto.
Qed.

(** ** Lists as functions *)
Definition mk (n : nat) (f : nat -> R) : list R := map f (seq 0 n).
Lemma mk_length : forall n f, length (mk n f) = n.
Proof. intros; unfold mk. rewrite map_length, seq_length; auto. Qed.
Lemma vget_mk : forall n f i, (i < n)%nat -> vget (mk n f) i = f i.
Proof.
  intros n f i H. unfold vget, mk. rewrite (nth_indep _ 0 (f O)) by (rewrite map_length, seq_length; auto).
  rewrite map_nth, seq_nth; auto.
Qed.
Lemma eq_mk : forall (l : list R) n f, length l = n -> (forall i, (i < n)%nat -> vget l i = f i) -> l = mk n f.
Proof.
  intros l n f L H. apply (list_ext _ 0).
  - rewrite mk_length; auto.
  - intros i Hi. fold (vget l i). fold (vget (mk n f) i). rewrite vget_mk by lia. apply H; lia.
Qed.
Lemma dotR_dotn : forall a b n, length a = n -> dotR a b = dotn n (vget a) (vget b).
Proof. intros a b n H. unfold dotR, dotn. rewrite H; auto. Qed.

Definition vadd (a : list R) (t : R) (b : list R) : list R := mk (length a) (fun i => vget a i + t * vget b i).
Definition amul (C : rcsr) (x : list R) : list R := mk (m C) (am (m C) (ent C) (vget x)).
Lemma vadd_length : forall a t b, length (vadd a t b) = length a.
Proof. intros; apply mk_length. Qed.
Lemma amul_length : forall C x, length (amul C x) = m C.
Proof. intros; apply mk_length. Qed.

Lemma axpy_ok : forall (a b : list R) (t : R), (length a <= length b)%nat -> axpy ROps a t b = Ok (vadd a t b).
Proof.
  intros a b t H. unfold axpy. destruct (zip2_ok (fun x y => x + t * y) a b H) as [c [E [L V]]].
  cbn [add mul ROps]. toR. rewrite E. f_equal. apply eq_mk; auto.
Qed.
Lemma mult_sym_am : forall (C : rcsr) (r x : list R), wf_csr C -> length r = m C -> length x = m C -> mult_sym ROps r C x = Ok (amul C x).
Proof. intros C r x W Lr Lx. destruct (mult_sym_ok C r x W Lr Lx) as [y [E [L V]]]. rewrite E. f_equal. apply eq_mk; auto. Qed.
Lemma initial_ok : forall (C : rcsr) (b x : list R), wf_csr C -> length b = m C -> length x = m C ->
  initial_residual ROps C b x = Ok (vadd b (-1) (amul C x)).
Proof.
  intros C b x W Lb Lx. unfold initial_residual. rewrite (mult_sym_am C); auto; [|unfold zeros; rewrite repeat_length; auto].
  cbn [bind]. destruct (zip2_ok Rminus b (amul C x)) as [c [E [L V]]]; [rewrite amul_length; lia|].
  cbn [sub ROps]. toR. rewrite E. f_equal. apply eq_mk; auto. intros i Hi. rewrite V by auto. ring.
Qed.

(** ** The common loop of the preconditioned solvers *)
Definition clampR (t : R) : R := if Rltb (Rabs t) (/ 2 ^ 52) then / 2 ^ 52 else t.
Fixpoint gl (f : list R -> res (list R)) (C : rcsr) (e : R) (n i : nat) (x r z p : list R) : res (list R * option nat) :=
  match n with
  | O => Ok (x, None)
  | S n' =>
      alpha <- Rdivr (dotR r z) (dotR p (amul C p)) ;;
      let x' := vadd x (clampR alpha) p in
      let r' := vadd r (- clampR alpha) (amul C p) in
      if Rltb (dotR r' r') (e * e) then Ok (x', Some i)
      else
        z' <- f r' ;;
        beta <- Rdivr (dotR r' z') (dotR r z) ;;
        gl f C e n' (S i) x' r' z' (vadd z' beta p)
  end.

Ltac lens := unfold len in *; rewrite ?vadd_length, ?amul_length in *; try lia; try congruence.

Lemma jacobi_gl : forall (C : rcsr) (P : list R) e, wf_csr C -> length P = m C ->
  forall n i (x r z p Ap : list R), length x = m C -> length r = m C -> length z = m C -> length p = m C -> length Ap = m C ->
  jacobi_loop ROps C P e n i x r z p Ap = gl (hadamard ROps P) C e n i x r z p.
Proof.
  intros C P e W LP; induction n as [|n IH]; intros i x r z p Ap Lx Lr Lz Lp La; cbn [jacobi_loop gl]; auto.
  rewrite (mult_sym_am C Ap p) by auto. cbn [bind]. toR.
  rewrite dot_ok by lens. cbn [bind]. rewrite dot_ok by lens. cbn [bind]. cbn [div ROps]. toR.
  destruct (Rdivr (dotR r z) (dotR p (amul C p))) as [alpha|?|?|?]; cbn [bind]; auto.
  assert (CL : clamp_alpha ROps alpha = clampR alpha) by reflexivity. rewrite CL. cbn [opp ROps].
  rewrite axpy_ok by lens. cbn [bind]. rewrite axpy_ok by lens. cbn [bind]. rewrite squareSum_ok. cbn [bind]. cbn [ltb mul ROps].
  set (r' := vadd r (- clampR alpha) (amul C p)). set (x' := vadd x (clampR alpha) p).
  destruct (Rltb (dotR r' r') (e * e)); auto.
  assert (Lr' : length r' = m C) by (unfold r'; lens). assert (Lx' : length x' = m C) by (unfold x'; lens).
  pose proof (safe_zip2n ROps (mul ROps) P r' (m C) LP Lr') as S. unfold hadamard.
  destruct (zip2 ROps (mul ROps) P r') as [z'|?|?|?]; cbn in S; try contradiction; cbn [bind]; auto. lens.
  toR. rewrite dot_ok by lens. cbn [bind]. destruct (Rdivr (dotR r' z') (dotR r z)) as [beta|?|?|?]; cbn [bind]; auto.
  rewrite axpy_ok by lens. cbn [bind]. apply IH; lens.
Qed.

(** the preconditioner overwrites its result vector *)
Lemma ssor_buffer : forall (C : rcsr) (r1 r2 cv : list R) w, length r1 = m C -> length r2 = m C -> length cv = m C ->
  ssor ROps C r1 cv w = ssor ROps C r2 cv w.
Proof.
  intros C r1 r2 cv w L1 L2 Lc. unfold ssor. cbv zeta. toR.
  assert (G : forall r : list R, length r = m C ->
     forM_up (m C) (fun i (r : list R) => c <- get cv i ;; set r i (mul ROps c (mul ROps w (sub ROps (ofZ ROps 2) w)))) r
       = Ok (mk (m C) (fun i => vget cv i * (w * (2 - w))))).
  { intros r L. destruct (forM_up_inv (list R) (fun i s => length s = m C /\ forall k, (k < i)%nat -> vget s k = vget cv k * (w * (2 - w)))
       (fun i (r : list R) => c <- get cv i ;; set r i (mul ROps c (mul ROps w (sub ROps (ofZ ROps 2) w)))) (m C) r) as [s [E [Ls V]]].
    - split; auto. intros; lia.
    - intros i s Hi [Ls Vs]. toR. rewrite (get_lt _ cv i 0) by lia. cbn [bind]. rewrite set_lt by lia. eexists; split; [reflexivity|].
      rewrite upd_length. split; auto. intros k Hk. unfold vget. rewrite nth_upd by lia. destruct (Nat.eqb_spec k i); [subst; cbn; ring|]. apply Vs; lia.
    - toR. rewrite E. f_equal. apply eq_mk; auto. }
  rewrite (G r1 L1), (G r2 L2). reflexivity.
Qed.

Definition ssor_f (C : rcsr) (w : R) (r : list R) : res (list R) := ssor ROps C (zeros ROps (m C)) r w.
Lemma ssor_gl : forall (C : rcsr) w e, wf_csr C -> is_u32 (m C) -> (1 <= m C)%nat ->
  forall n i (x r z p Ap : list R), length x = m C -> length r = m C -> length z = m C -> length p = m C -> length Ap = m C ->
  ssor_loop ROps C w e n i x r z p Ap (dotR r z) = gl (ssor_f C w) C e n i x r z p.
Proof.
  intros C w e W U N1; induction n as [|n IH]; intros i x r z p Ap Lx Lr Lz Lp La; cbn [ssor_loop gl]; auto.
  rewrite (mult_sym_am C Ap p) by auto. cbn [bind]. toR.
  rewrite dot_ok by lens. cbn [bind]. cbn [div ROps]. toR.
  destruct (Rdivr (dotR r z) (dotR p (amul C p))) as [alpha|?|?|?]; cbn [bind]; auto.
  assert (CL : clamp_alpha ROps alpha = clampR alpha) by reflexivity. rewrite CL. cbn [opp ROps].
  rewrite axpy_ok by lens. cbn [bind]. rewrite axpy_ok by lens. cbn [bind]. rewrite squareSum_ok. cbn [bind]. cbn [ltb mul ROps].
  set (r' := vadd r (- clampR alpha) (amul C p)). set (x' := vadd x (clampR alpha) p).
  destruct (Rltb (dotR r' r') (e * e)); auto.
  assert (Lr' : length r' = m C) by (unfold r'; lens). assert (Lx' : length x' = m C) by (unfold x'; lens).
  unfold ssor_f. rewrite (ssor_buffer C z (zeros ROps (m C)) r' w) by (auto; unfold zeros; apply repeat_length).
  pose proof (safe_ssor ROps total_R C (zeros ROps (m C)) r' w (m C) W U N1 eq_refl (len_zeros ROps (m C)) Lr') as S.
  destruct (ssor ROps C (zeros ROps (m C)) r' w) as [z'|?|?|?]; cbn in S; try contradiction; cbn [bind]; auto. lens.
  toR. rewrite dot_ok by lens. cbn [bind]. destruct (Rdivr (dotR r' z') (dotR r z)) as [beta|?|?|?]; cbn [bind]; auto.
  rewrite axpy_ok by lens. cbn [bind]. apply IH; lens.
Qed.

Lemma lower_buffer : forall (C : rcsr) (r1 r2 x : list R), wf_csr C -> length r1 = m C -> length r2 = m C -> length x = m C ->
  mult_lower ROps r1 C x = mult_lower ROps r2 C x.
Proof.
  intros C r1 r2 x W L1 L2 Lx. destruct (mult_lower_ok C r1 x W L1 Lx) as [y1 [E1 [M1 V1]]]. destruct (mult_lower_ok C r2 x W L2 Lx) as [y2 [E2 [M2 V2]]].
  rewrite E1, E2. f_equal. rewrite (eq_mk y1 (m C) _ M1 V1), (eq_mk y2 (m C) _ M2 V2). auto.
Qed.
Lemma upper_buffer : forall (C : rcsr) (r1 r2 x : list R), wf_csr C -> length r1 = m C -> length r2 = m C -> length x = m C ->
  mult_upper ROps r1 C x = mult_upper ROps r2 C x.
Proof.
  intros C r1 r2 x W L1 L2 Lx. destruct (mult_upper_ok C r1 x W L1 Lx) as [y1 [E1 [M1 V1]]]. destruct (mult_upper_ok C r2 x W L2 Lx) as [y2 [E2 [M2 V2]]].
  rewrite E1, E2. f_equal. rewrite (eq_mk y1 (m C) _ M1 V1), (eq_mk y2 (m C) _ M2 V2). auto.
Qed.

Definition ic_f (L : rcsr) (r : list R) : res (list R) :=
  q <- ic_apply ROps L (zeros ROps (m L)) (zeros ROps (m L)) r ;; Ok (snd q).
Lemma ic_gl : forall (C L : rcsr) e, wf_csr C -> wf_csr L -> m L = m C ->
  forall n i (x r z tmp p Ap : list R), length x = m C -> length r = m C -> length z = m C -> length tmp = m C -> length p = m C -> length Ap = m C ->
  ic_loop ROps C L e n i x r z tmp p Ap = gl (ic_f L) C e n i x r z p.
Proof.
  intros C L e W WL ML; induction n as [|n IH]; intros i x r z tmp p Ap Lx Lr Lz Lt Lp La; cbn [ic_loop gl]; auto.
  rewrite (mult_sym_am C Ap p) by auto. cbn [bind]. toR.
  rewrite dot_ok by lens. cbn [bind]. rewrite dot_ok by lens. cbn [bind]. cbn [div ROps]. toR.
  destruct (Rdivr (dotR r z) (dotR p (amul C p))) as [alpha|?|?|?]; cbn [bind]; auto.
  assert (CL : clamp_alpha ROps alpha = clampR alpha) by reflexivity. rewrite CL. cbn [opp ROps].
  rewrite axpy_ok by lens. cbn [bind]. rewrite axpy_ok by lens. cbn [bind]. rewrite squareSum_ok. cbn [bind]. cbn [ltb mul ROps].
  set (r' := vadd r (- clampR alpha) (amul C p)). set (x' := vadd x (clampR alpha) p).
  destruct (Rltb (dotR r' r') (e * e)); auto.
  assert (Lr' : length r' = m C) by (unfold r'; lens). assert (Lx' : length x' = m C) by (unfold x'; lens).
  assert (LZ : length (zeros ROps (m L)) = m C) by (unfold zeros; rewrite repeat_length; auto).
  unfold ic_f, ic_apply. toR.
  destruct (mult_lower_ok L tmp r' WL) as [t1 [E1 [M1 _]]]; [lens|lens|].
  rewrite (lower_buffer L (zeros ROps (m L)) tmp r') by (auto; lens). rewrite E1. cbn [bind].
  destruct (mult_upper_ok L z t1 WL) as [z' [E2 [M2 _]]]; [lens|lens|].
  rewrite (upper_buffer L (zeros ROps (m L)) z t1) by (auto; lens). rewrite E2. cbn [bind snd].
  rewrite dot_ok by lens. cbn [bind]. destruct (Rdivr (dotR r' z') (dotR r z)) as [beta|?|?|?]; cbn [bind]; auto.
  rewrite axpy_ok by lens. cbn [bind]. apply IH; lens.
Qed.

(** ** Residuals *)
Definition resid (C : rcsr) (b x : list R) (i : nat) : R := vget b i - am (m C) (ent C) (vget x) i.
Definition is_res (C : rcsr) (b x r : list R) : Prop := forall i, (i < m C)%nat -> vget r i = resid C b x i.
Definition resid_sq (C : rcsr) (b x : list R) : R := dotn (m C) (resid C b x) (resid C b x).

Lemma res_step : forall (C : rcsr) b x r t p, length x = m C -> length r = m C -> is_res C b x r ->
  is_res C b (vadd x t p) (vadd r (- t) (amul C p)).
Proof.
  intros C b x r t p Lx Lr H i Hi. unfold vadd. rewrite vget_mk by lia. rewrite H by auto. unfold amul. rewrite vget_mk by auto.
  unfold resid. rewrite (am_ext (m C) (ent C) (vget (mk (length x) (fun i => vget x i + t * vget p i))) (fun j => vget x j + t * vget p j)).
  - rewrite am_lin. ring.
  - intros j Hj. rewrite vget_mk by lia. auto.
Qed.
Lemma res_sq : forall (C : rcsr) b x r, length r = m C -> is_res C b x r -> dotR r r = resid_sq C b x.
Proof. intros C b x r L H. rewrite (dotR_dotn r r (m C) L). apply dotn_ext; auto. Qed.
Lemma res_initial : forall (C : rcsr) b x, length b = m C -> is_res C b x (vadd b (-1) (amul C x)).
Proof. intros C b x Lb i Hi. unfold vadd. rewrite vget_mk by lia. unfold amul. rewrite vget_mk by auto. unfold resid. ring. Qed.

(** outcome of a solver run with at least one iteration (or an initial check) *)
Definition outcome_ok (C : rcsr) (b : list R) (e : R) (q : list R * option nat) : Prop :=
  length (fst q) = m C /\ (match snd q with Some _ => resid_sq C b (fst q) < e * e | None => e * e <= resid_sq C b (fst q) end).

Lemma gl_residual : forall f (C : rcsr) (b : list R) e, (forall r, length r = m C -> safeP (fun z : list R => length z = m C) (f r)) ->
  forall n i (x r z p : list R) q, length x = m C -> length r = m C -> length z = m C -> length p = m C -> is_res C b x r ->
  gl f C e n i x r z p = Ok q ->
  length (fst q) = m C /\
  (n = O \/ match snd q with Some _ => resid_sq C b (fst q) < e * e | None => e * e <= resid_sq C b (fst q) end) /\
  (match snd q with Some k => (i <= k < i + n)%nat | None => n = O -> fst q = x end).
Proof.
  intros f C b e Hf; induction n as [|n IH]; intros i x r z p q Lx Lr Lz Lp HR E; cbn [gl] in E.
  - inversion E; subst; cbn. auto.
  - destruct (Rdivr (dotR r z) (dotR p (amul C p))) as [alpha|?|?|?]; cbn [bind] in E; try discriminate.
    cbv zeta in E. pose proof (res_step C b x r (clampR alpha) p Lx Lr HR) as HR'.
    set (r' := vadd r (- clampR alpha) (amul C p)) in *. set (x' := vadd x (clampR alpha) p) in *.
    assert (Lr' : length r' = m C) by (unfold r'; lens). assert (Lx' : length x' = m C) by (unfold x'; lens).
    pose proof (res_sq C b x' r' Lr' HR') as SQ.
    destruct (Rltb (dotR r' r') (e * e)) eqn:B.
    + inversion E; subst; cbn. apply Rltb_true in B. rewrite SQ in B. split; auto. split; [auto|lia].
    + apply Rltb_false in B. rewrite SQ in B. pose proof (Hf r' Lr') as Hz.
      destruct (f r') as [z'|?|?|?]; cbn in Hz; try contradiction; cbn [bind] in E; try discriminate.
      destruct (Rdivr (dotR r' z') (dotR r z)) as [beta|?|?|?]; cbn [bind] in E; try discriminate.
      destruct (IH (S i) x' r' z' (vadd z' beta p) q Lx' Lr' Hz ltac:(lens) HR' E) as [Q1 [Q2 Q3]].
      split; auto. split.
      * right. destruct Q2 as [->|Q2]; [|auto]. cbn in E. inversion E; subst; cbn. auto.
      * destruct (snd q); [lia|intros; lia].
Qed.

Fixpoint cl (C : rcsr) (e : R) (n i : nat) (x r p : list R) : res (list R * option nat) :=
  match n with
  | O => Ok (x, None)
  | S n' =>
      let pAp := dotR p (amul C p) in
      let pAp := if Rltb (Rabs pAp) (/ 2 ^ 52) then / 2 ^ 52 else pAp in
      alpha <- Rdivr (dotR r r) pAp ;;
      let x' := vadd x alpha p in
      let r' := vadd r (- alpha) (amul C p) in
      if Rltb (dotR r' r') (e * e) then Ok (x', Some i)
      else
        beta <- Rdivr (dotR r' r') (dotR r r) ;;
        cl C e n' (S i) x' r' (vadd r' beta p)
  end.
Lemma cg_cl : forall (C : rcsr) e, wf_csr C ->
  forall n i (x r p Ap : list R), length x = m C -> length r = m C -> length p = m C -> length Ap = m C ->
  cg_loop ROps C e n i x r p (dotR r r) Ap = cl C e n i x r p.
Proof.
  intros C e W; induction n as [|n IH]; intros i x r p Ap Lx Lr Lp La; cbn [cg_loop cl]; auto.
  rewrite (mult_sym_am C Ap p) by auto. cbn [bind]. toR.
  rewrite dot_ok by lens. cbn [bind]. cbn [div ROps ltb fabs dbl_eps]. cbv zeta. toR.
  set (pAp := if Rltb (Rabs (dotR p (amul C p))) (/ 2 ^ 52) then / 2 ^ 52 else dotR p (amul C p)).
  destruct (Rdivr (dotR r r) pAp) as [alpha|?|?|?]; cbn [bind]; auto. cbn [opp ROps].
  rewrite axpy_ok by lens. cbn [bind]. rewrite axpy_ok by lens. cbn [bind]. rewrite squareSum_ok. cbn [bind]. cbn [ltb mul ROps].
  set (r' := vadd r (- alpha) (amul C p)). set (x' := vadd x alpha p).
  destruct (Rltb (dotR r' r') (e * e)); auto.
  assert (Lr' : length r' = m C) by (unfold r'; lens). assert (Lx' : length x' = m C) by (unfold x'; lens).
  destruct (Rdivr (dotR r' r') (dotR r r)) as [beta|?|?|?]; cbn [bind]; auto.
  rewrite axpy_ok by lens. cbn [bind]. apply IH; lens.
Qed.
Lemma cl_residual : forall (C : rcsr) (b : list R) e,
  forall n i (x r p : list R) q, length x = m C -> length r = m C -> length p = m C -> is_res C b x r ->
  cl C e n i x r p = Ok q ->
  length (fst q) = m C /\
  (n = O \/ match snd q with Some _ => resid_sq C b (fst q) < e * e | None => e * e <= resid_sq C b (fst q) end) /\
  (match snd q with Some k => (i <= k < i + n)%nat | None => n = O -> fst q = x end).
Proof.
  intros C b e; induction n as [|n IH]; intros i x r p q Lx Lr Lp HR E; cbn [cl] in E.
  - inversion E; subst; cbn. auto.
  - cbv zeta in E. match type of E with bind ?d _ = _ => destruct d as [alpha|?|?|?]; cbn [bind] in E; try discriminate end.
    pose proof (res_step C b x r alpha p Lx Lr HR) as HR'.
    set (r' := vadd r (- alpha) (amul C p)) in *. set (x' := vadd x alpha p) in *.
    assert (Lr' : length r' = m C) by (unfold r'; lens). assert (Lx' : length x' = m C) by (unfold x'; lens).
    pose proof (res_sq C b x' r' Lr' HR') as SQ.
    destruct (Rltb (dotR r' r') (e * e)) eqn:B.
    + inversion E; subst; cbn. apply Rltb_true in B. rewrite SQ in B. split; auto. split; [auto|lia].
    + apply Rltb_false in B. rewrite SQ in B.
      destruct (Rdivr (dotR r' r') (dotR r r)) as [beta|?|?|?]; cbn [bind] in E; try discriminate.
      destruct (IH (S i) x' r' (vadd r' beta p) q Lx' Lr' ltac:(lens) HR' E) as [Q1 [Q2 Q3]].
      split; auto. split.
      * right. destruct Q2 as [->|Q2]; [|auto]. cbn in E. inversion E; subst; cbn. auto.
      * destruct (snd q); [lia|intros; lia].
Qed.
