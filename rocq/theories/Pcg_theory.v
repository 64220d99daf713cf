(** Preconditioned conjugate gradients on real vectors given as functions: orthogonality, energy decrease,
    linear dependence.  Independent of the program model. *)
From Coq Require Import List Arith Bool Lia Reals Lra.
From Verif Require Import SumR.
Local Open Scope R_scope.

(** ** n+1 vectors of dimension n are linearly dependent *)
Definition skip (i0 i : nat) : nat := if Nat.ltb i i0 then i else S i.
Lemma sumn_skip : forall n i0 f, (i0 <= n)%nat -> sumn (S n) f = f i0 + sumn n (fun i => f (skip i0 i)).
Proof.
  induction n as [|n IH]; intros i0 f H.
  - assert (i0 = 0)%nat by lia. subst. cbn. ring.
  - destruct (Nat.eq_dec i0 (S n)) as [E|E].
    + subst. rewrite (sumn_ext (S n) (fun i => f (skip (S n) i)) f).
      * cbn [sumn]. ring.
      * intros i Hi. unfold skip. destruct (Nat.ltb_spec i (S n)); [auto|lia].
    + change (sumn (S (S n)) f) with (sumn (S n) f + f (S n)). rewrite (IH i0) by lia.
      cbn [sumn]. unfold skip at 3. destruct (Nat.ltb_spec n i0); [lia|]. ring.
Qed.

Lemma lin_dep : forall n (v : nat -> nat -> R),
  exists c : nat -> R, (exists i, (i <= n)%nat /\ c i <> 0) /\ forall j, (j < n)%nat -> sumn (S n) (fun i => c i * v i j) = 0.
Proof.
  induction n as [|n IH]; intros v.
  - exists (fun _ => 1). split; [exists 0%nat; split; [lia|lra]|intros; lia].
  - destruct (all_zero_dec (S (S n)) (fun i => v i n)) as [[i0 [H0 N0]]|Z].
    + destruct (IH (fun i j => v (skip i0 i) j - v (skip i0 i) n / v i0 n * v i0 j)) as [c [[k [Hk Nk]] Hc]].
      exists (fun i => if Nat.eqb i i0 then - sumn (S n) (fun t => c t * (v (skip i0 t) n / v i0 n))
                  else c (if Nat.ltb i i0 then i else pred i)).
      assert (SK : forall t, Nat.eqb (skip i0 t) i0 = false).
      { intros t. unfold skip. destruct (Nat.ltb_spec t i0); apply Nat.eqb_neq; lia. }
      assert (SC : forall t, (if Nat.ltb (skip i0 t) i0 then skip i0 t else pred (skip i0 t)) = t).
      { intros t. unfold skip. destruct (Nat.ltb_spec t i0).
        - destruct (Nat.ltb_spec t i0); auto; lia.
        - destruct (Nat.ltb_spec (S t) i0); auto; lia. }
      split.
      * exists (skip i0 k). rewrite SK, SC. split; auto. unfold skip. destruct (Nat.ltb_spec k i0); lia.
      * intros j Hj. rewrite (sumn_skip (S n) i0) by lia. rewrite Nat.eqb_refl.
        match goal with |- _ + sumn (S n) ?g = 0 => rewrite (sumn_ext (S n) g (fun t => c t * v (skip i0 t) j)) by (intros t Ht; rewrite SK, SC; auto) end.
        destruct (Nat.eq_dec j n) as [->|NE].
        -- rewrite <- sumn_opp, <- sumn_scal_r, <- sumn_plus. apply sumn_0. intros t Ht. field. auto.
        -- specialize (Hc j ltac:(lia)).
           rewrite (sumn_ext (S n) _ (fun t => c t * v (skip i0 t) j + - (c t * (v (skip i0 t) n / v i0 n)) * v i0 j)) in Hc by (intros; ring).
           rewrite sumn_plus, sumn_scal_r, sumn_opp in Hc. lra.
    + destruct (IH v) as [c [[k [Hk Nk]] Hc]].
      exists (fun i => if Nat.leb i n then c i else 0). split.
      * exists k. split; [lia|]. destruct (Nat.leb_spec k n); [auto|lia].
      * intros j Hj. change (sumn (S (S n))) with (fun f => sumn (S n) f + f (S n)). cbv beta.
        destruct (Nat.leb_spec (S n) n); [lia|]. 
        rewrite (sumn_ext (S n) _ (fun i => c i * v i j)).
        -- destruct (Nat.eq_dec j n) as [->|NE].
           ++ rewrite (sumn_0 (S n)); [ring|]. intros i Hi. rewrite Z by lia. ring.
           ++ rewrite Hc by lia. ring.
        -- intros i Hi. destruct (Nat.leb_spec i n); [auto|lia].
Qed.

Section Dim.
Variable n : nat.
Definition dotn (f g : nat -> R) : R := sumn n (fun i => f i * g i).

Lemma dotn_ext : forall f f' g g', (forall i, (i < n)%nat -> f i = f' i) -> (forall i, (i < n)%nat -> g i = g' i) -> dotn f g = dotn f' g'.
Proof. intros; apply sumn_ext; intros i Hi. rewrite H, H0; auto. Qed.
Lemma dotn_sym : forall f g, dotn f g = dotn g f.
Proof. intros; apply sumn_ext; intros; ring. Qed.
Lemma dotn_lin_l : forall f g t h, dotn (fun i => f i + t * g i) h = dotn f h + t * dotn g h.
Proof. intros; unfold dotn. rewrite <- sumn_scal, <- sumn_plus. apply sumn_ext; intros; ring. Qed.
Lemma dotn_lin_r : forall f g t h, dotn h (fun i => f i + t * g i) = dotn h f + t * dotn h g.
Proof. intros. rewrite dotn_sym, dotn_lin_l, (dotn_sym f), (dotn_sym g); auto. Qed.
Lemma dotn_nonneg : forall f, 0 <= dotn f f.
Proof. intros; apply sumn_nonneg; intros; apply Rle_0_sqr. Qed.
Lemma dotn_zero : forall f, dotn f f = 0 -> forall i, (i < n)%nat -> f i = 0.
Proof.
  intros f H i Hi. pose proof (sumn_pos_zero n (fun i => f i * f i) ltac:(intros; apply Rle_0_sqr) H i Hi) as Z. cbn in Z. apply Rsqr_0_uniq. exact Z.
Qed.
Lemma dotn_pos : forall f, (exists i, (i < n)%nat /\ f i <> 0) -> 0 < dotn f f.
Proof. intros f [i [Hi N]]. pose proof (dotn_nonneg f). destruct (Req_dec (dotn f f) 0) as [E|E]; [|lra]. exfalso; apply N; apply dotn_zero; auto. Qed.
Lemma dotn_0l : forall f g, (forall i, (i < n)%nat -> f i = 0) -> dotn f g = 0.
Proof. intros; apply sumn_0; intros i Hi. rewrite H; auto; ring. Qed.
Lemma nz_dot : forall f, dotn f f <> 0 -> exists i, (i < n)%nat /\ f i <> 0.
Proof. intros f H. destruct (all_zero_dec n f) as [Q|Q]; auto. exfalso; apply H. apply dotn_0l; auto. Qed.

Variable a : nat -> nat -> R.
Definition am (x : nat -> R) (i : nat) : R := sumn n (fun j => a i j * x j).
Lemma am_ext : forall x y i, (forall j, (j < n)%nat -> x j = y j) -> am x i = am y i.
Proof. intros; apply sumn_ext; intros j Hj. rewrite H; auto. Qed.
Lemma am_lin : forall x t y i, am (fun j => x j + t * y j) i = am x i + t * am y i.
Proof. intros; unfold am. rewrite <- sumn_scal, <- sumn_plus. apply sumn_ext; intros; ring. Qed.
Hypothesis Asym : forall i j, (i < n)%nat -> (j < n)%nat -> a i j = a j i.
Lemma am_adj : forall x y, dotn (am x) y = dotn x (am y).
Proof.
  intros; unfold dotn, am.
  rewrite (sumn_ext n _ (fun i => sumn n (fun j => a i j * x j * y i))) by (intros; rewrite <- sumn_scal_r; auto).
  rewrite sumn_exchange. apply sumn_ext. intros j Hj. rewrite <- sumn_scal. apply sumn_ext. intros i Hi. rewrite (Asym i j) by auto. ring.
Qed.

Record Hist (k : nat) (rs zs ps : nat -> nat -> R) (bt al : nat -> R) : Prop := {
  h_rz : forall i j, (i <= k)%nat -> (j <= k)%nat -> i <> j -> dotn (rs i) (zs j) = 0;
  h_pos : forall i, (i <= k)%nat -> 0 < dotn (rs i) (zs i);
  h_pAp : forall i j, (i <= k)%nat -> (j <= k)%nat -> i <> j -> dotn (ps i) (am (ps j)) = 0;
  h_p0 : forall c, (c < n)%nat -> ps O c = zs O c;
  h_p : forall i, (i < k)%nat -> forall c, (c < n)%nat -> ps (S i) c = zs (S i) c + bt i * ps i c;
  h_r : forall i, (i < k)%nat -> forall c, (c < n)%nat -> rs (S i) c = rs i c + - al i * am (ps i) c;
  h_al : forall i, (i < k)%nat -> al i <> 0 }.

Section H.
Variables (k : nat) (rs zs ps : nat -> nat -> R) (bt al : nat -> R).
Hypothesis HH : Hist k rs zs ps bt al.

Lemma h_rp : forall j i, (j < i <= k)%nat -> dotn (rs i) (ps j) = 0.
Proof.
  induction j as [|j IH]; intros i H.
  - rewrite (dotn_ext _ (rs i) _ (zs O)); auto; [apply (h_rz _ _ _ _ _ _ HH); lia|]. intros; apply (h_p0 _ _ _ _ _ _ HH); auto.
  - rewrite (dotn_ext _ (rs i) _ (fun c => zs (S j) c + bt j * ps j c)); auto.
    + rewrite dotn_lin_r, IH by lia. rewrite (h_rz _ _ _ _ _ _ HH) by lia. ring.
    + intros; apply (h_p _ _ _ _ _ _ HH); auto; lia.
Qed.
Lemma h_pk : (k = O /\ forall c, (c < n)%nat -> ps k c = zs k c) \/
  (exists k', k = S k' /\ forall c, (c < n)%nat -> ps k c = zs k c + bt k' * ps k' c).
Proof.
  assert (K : k = O \/ exists k', k = S k') by (destruct k; eauto). destruct K as [E|[k' E]].
  - left. split; auto. rewrite E. apply (h_p0 _ _ _ _ _ _ HH).
  - right. exists k'. split; auto. pose proof (h_p _ _ _ _ _ _ HH k' ltac:(lia)) as Q. rewrite <- E in Q. auto.
Qed.
Lemma h_rpk : dotn (rs k) (ps k) = dotn (rs k) (zs k).
Proof.
  destruct h_pk as [[E P]|[k' [E P]]].
  - apply dotn_ext; auto.
  - rewrite (dotn_ext _ (rs k) _ (fun c => zs k c + bt k' * ps k' c)); auto.
    rewrite dotn_lin_r. rewrite (h_rp k' k) by lia. ring.
Qed.
Hypothesis Apos : forall x, (exists i, (i < n)%nat /\ x i <> 0) -> 0 < dotn x (am x).
Lemma A_nonneg : forall x, 0 <= dotn x (am x).
Proof. intros x. destruct (all_zero_dec n x) as [Q|Q]; [apply Rlt_le; auto|]. rewrite dotn_0l; auto; lra. Qed.
Lemma h_pnz : exists i, (i < n)%nat /\ ps k i <> 0.
Proof.
  destruct (all_zero_dec n (ps k)) as [Q|Q]; auto. exfalso.
  pose proof h_rpk as E. rewrite dotn_sym, dotn_0l in E by auto. pose proof (h_pos _ _ _ _ _ _ HH k (le_n k)). lra.
Qed.
Lemma h_pApk : 0 < dotn (ps k) (am (ps k)).
Proof. apply Apos, h_pnz. Qed.
Lemma h_zAz : dotn (ps k) (am (ps k)) <= dotn (zs k) (am (zs k)).
Proof.
  destruct h_pk as [[E P]|[k' [E P]]].
  - apply Req_le. apply dotn_ext; [|intros; apply am_ext]; auto.
  - assert (Z : forall c, (c < n)%nat -> zs k c = ps k c + - bt k' * ps k' c).
    { intros c Hc. rewrite (P c Hc). ring. }
    rewrite (dotn_ext (zs k) (fun c => ps k c + - bt k' * ps k' c) (am (zs k)) (fun c => am (ps k) c + - bt k' * am (ps k') c)).
    + rewrite dotn_lin_l, !dotn_lin_r. rewrite (h_pAp _ _ _ _ _ _ HH k k') by lia. rewrite (h_pAp _ _ _ _ _ _ HH k' k) by lia.
      pose proof (A_nonneg (ps k')) as P1. pose proof (Rle_0_sqr (bt k')) as Q. unfold Rsqr in Q.
      pose proof (Rmult_le_pos _ _ Q P1). lra.
    + auto.
    + intros c Hc. rewrite (am_ext _ (fun c => ps k c + - bt k' * ps k' c)) by auto. apply am_lin.
Qed.

(** one more iteration *)
Definition ext (f : nat -> nat -> R) (v : nat -> R) (i : nat) : nat -> R := if Nat.eqb i (S k) then v else f i.
Definition exts (f : nat -> R) (v : R) (i : nat) : R := if Nat.eqb i k then v else f i.
Variables (r z p : nat -> R) (alpha beta : R).
Hypothesis Ea : alpha = dotn (rs k) (zs k) / dotn (ps k) (am (ps k)).
Hypothesis Er : forall c, (c < n)%nat -> r c = rs k c + - alpha * am (ps k) c.
Hypothesis Eb : beta = dotn r z / dotn (rs k) (zs k).
Hypothesis Ep : forall c, (c < n)%nat -> p c = z c + beta * ps k c.
Hypothesis Sz : forall i, (i <= k)%nat -> dotn (rs i) z = dotn r (zs i).
Hypothesis Pz : 0 < dotn r z.

Lemma alpha_nz : alpha <> 0.
Proof.
  rewrite Ea. pose proof (h_pos _ _ _ _ _ _ HH k (le_n k)) as P1. pose proof h_pApk as P2.
  pose proof (Rdiv_lt_0_compat _ _ P1 P2). lra.
Qed.
(** A p_k . p_j for the residual differences *)
Lemma r_old : forall j, (j <= k)%nat -> dotn r (zs j) = 0.
Proof.
  intros j Hj. rewrite (dotn_ext r (fun c => rs k c + - alpha * am (ps k) c) (zs j) (zs j)); auto. rewrite dotn_lin_l.
  assert (ZA : dotn (am (ps k)) (zs j) = if Nat.eqb j k then dotn (ps k) (am (ps k)) else 0).
  { destruct j as [|j'].
    - rewrite (dotn_ext _ (am (ps k)) (zs O) (ps O)); [|auto|intros; symmetry; apply (h_p0 _ _ _ _ _ _ HH); auto].
      rewrite am_adj. destruct (Nat.eqb_spec 0 k) as [<-|E]; auto. apply (h_pAp _ _ _ _ _ _ HH); lia.
    - rewrite (dotn_ext _ (am (ps k)) (zs (S j')) (fun c => ps (S j') c + - bt j' * ps j' c)); auto.
      + rewrite dotn_lin_r, !am_adj. rewrite (h_pAp _ _ _ _ _ _ HH k j') by lia.
        destruct (Nat.eqb_spec (S j') k) as [<-|E]; [ring|]. rewrite (h_pAp _ _ _ _ _ _ HH k (S j')) by lia. ring.
      + intros c Hc. rewrite (h_p _ _ _ _ _ _ HH j') by (auto; lia). ring. }
  rewrite ZA. destruct (Nat.eqb_spec j k) as [->|E].
  - rewrite Ea. pose proof h_pApk. field. lra.
  - rewrite (h_rz _ _ _ _ _ _ HH) by lia. ring.
Qed.
Lemma pAp_old : forall j, (j <= k)%nat -> dotn p (am (ps j)) = 0.
Proof.
  intros j Hj. rewrite (dotn_ext p (fun c => z c + beta * ps k c) (am (ps j)) (am (ps j))); auto. rewrite dotn_lin_l.
  assert (Nz := alpha_nz). pose proof h_pApk as PP. pose proof (h_pos _ _ _ _ _ _ HH k (le_n k)) as RZ.
  destruct (Nat.eq_dec j k) as [->|NE].
  - assert (E : alpha * dotn z (am (ps k)) = - dotn r z).
    { assert (Q : dotn r z = dotn (rs k) z + - alpha * dotn (am (ps k)) z).
      { rewrite <- dotn_lin_l. apply dotn_ext; auto. }
      rewrite (Sz k) in Q by lia. rewrite r_old in Q by lia. rewrite (dotn_sym (am (ps k)) z) in Q. lra. }
    assert (E2 : dotn z (am (ps k)) = - dotn r z / alpha) by (rewrite <- E; field; auto).
    rewrite E2, Eb, Ea. field. lra.
  - rewrite (h_pAp _ _ _ _ _ _ HH k j) by lia.
    assert (E : al j * dotn z (am (ps j)) = 0).
    { assert (Q : dotn (rs (S j)) z = dotn (rs j) z + - al j * dotn (am (ps j)) z).
      { rewrite <- dotn_lin_l. apply dotn_ext; auto. intros c Hc. apply (h_r _ _ _ _ _ _ HH); auto; lia. }
      rewrite !Sz in Q by lia. rewrite !r_old in Q by lia. rewrite (dotn_sym (am (ps j)) z) in Q. lra. }
    apply Rmult_integral in E. destruct E as [E|E]; [exfalso; apply (h_al _ _ _ _ _ _ HH j); auto; lia|]. rewrite E. ring.
Qed.

Lemma hist_extend : Hist (S k) (ext rs r) (ext zs z) (ext ps p) (exts bt beta) (exts al alpha).
Proof.
  assert (EO : forall f v i, (i <= k)%nat -> ext f v i = f i).
  { intros f v i H. unfold ext. destruct (Nat.eqb_spec i (S k)); auto; lia. }
  assert (EN : forall f v, ext f v (S k) = v) by (intros; unfold ext; rewrite Nat.eqb_refl; auto).
  assert (SO : forall f v i, (i < k)%nat -> exts f v i = f i).
  { intros f v i H. unfold exts. destruct (Nat.eqb_spec i k); auto; lia. }
  assert (SN : forall f v, exts f v k = v) by (intros; unfold exts; rewrite Nat.eqb_refl; auto).
  assert (CS : forall i, (i <= S k)%nat -> (i <= k)%nat \/ i = S k) by lia.
  constructor.
  - intros i j Hi Hj NE. destruct (CS i Hi) as [Hi'| ->], (CS j Hj) as [Hj'| ->]; try lia; rewrite ?EN, ?EO by lia.
    + apply (h_rz _ _ _ _ _ _ HH); auto.
    + rewrite Sz by auto. apply r_old; auto.
    + apply r_old; auto.
  - intros i Hi. destruct (CS i Hi) as [Hi'| ->]; rewrite ?EN, ?EO by lia; auto. apply (h_pos _ _ _ _ _ _ HH); auto.
  - intros i j Hi Hj NE. destruct (CS i Hi) as [Hi'| ->], (CS j Hj) as [Hj'| ->]; try lia; rewrite ?EN, ?EO by lia.
    + apply (h_pAp _ _ _ _ _ _ HH); auto.
    + rewrite <- am_adj, dotn_sym. apply pAp_old; auto.
    + apply pAp_old; auto.
  - intros c Hc. rewrite !EO by lia. apply (h_p0 _ _ _ _ _ _ HH); auto.
  - intros i Hi c Hc. destruct (Nat.eq_dec i k) as [->|NE].
    + rewrite !EN, SN, EO by lia. auto.
    + rewrite !EO, SO by lia. apply (h_p _ _ _ _ _ _ HH); auto; lia.
  - intros i Hi c Hc. destruct (Nat.eq_dec i k) as [->|NE].
    + rewrite EN, SN, !EO by lia. auto.
    + rewrite !EO, SO by lia. apply (h_r _ _ _ _ _ _ HH); auto; lia.
  - intros i Hi. destruct (Nat.eq_dec i k) as [->|NE].
    + rewrite SN. apply alpha_nz.
    + rewrite SO by lia. apply (h_al _ _ _ _ _ _ HH); lia.
Qed.
End H.

(** k+1 such residuals fit into n dimensions *)
Lemma hist_dim : forall k rs zs ps bt al, Hist k rs zs ps bt al -> (S k <= n)%nat.
Proof.
  intros k rs zs ps bt al HH. destruct (le_lt_dec (S k) n) as [H|H]; auto. exfalso.
  destruct (lin_dep n rs) as [c [[i0 [H0 N0]] Hc]].
  assert (E : dotn (fun j => sumn (S n) (fun i => c i * rs i j)) (zs i0) = 0) by (apply dotn_0l; auto).
  unfold dotn in E.
  rewrite (sumn_ext n _ (fun j => sumn (S n) (fun i => c i * rs i j * zs i0 j))) in E by (intros; rewrite <- sumn_scal_r; auto).
  rewrite sumn_exchange in E.
  rewrite (sumn_ext (S n) _ (fun i => c i * dotn (rs i) (zs i0))) in E.
  - rewrite (sumn_single (S n) i0) in E; [|lia|].
    + pose proof (h_pos _ _ _ _ _ _ HH i0 ltac:(lia)). apply Rmult_integral in E. destruct E; [auto|lra].
    + intros i Hi NE. rewrite (h_rz _ _ _ _ _ _ HH i i0) by lia. ring.
  - intros i Hi. unfold dotn. rewrite <- sumn_scal. apply sumn_ext; intros; ring.
Qed.

(** energy of the error after a step along p *)
Definition energy (x xs : nat -> R) : R := dotn (fun i => x i - xs i) (am (fun i => x i - xs i)).
Lemma energy_step : forall x xs p r t x', (forall i, (i < n)%nat -> r i = am xs i - am x i) ->
  (forall i, (i < n)%nat -> x' i = x i + t * p i) ->
  energy x' xs = energy x xs - 2 * t * dotn r p + t * t * dotn p (am p).
Proof.
  intros x xs p r t x' Hr Hx. unfold energy.
  rewrite (dotn_ext (fun i => x' i - xs i) (fun i => (x i - xs i) + t * p i) (am (fun i => x' i - xs i)) (fun i => am (fun i => x i - xs i) i + t * am p i)).
  - rewrite dotn_lin_l, !dotn_lin_r. rewrite <- (am_adj (fun i => x i - xs i) p).
    assert (D : dotn (am (fun i => x i - xs i)) p = - dotn r p).
    { replace (- dotn r p) with (dotn (fun i => 0 + (-1) * r i) p) by (rewrite dotn_lin_l, dotn_0l by auto; ring).
      apply dotn_ext; auto. intros i Hi. rewrite Hr by auto.
      rewrite (am_ext _ (fun i => x i + (-1) * xs i)) by (intros; ring). rewrite am_lin. ring. }
    rewrite (dotn_sym p), D. ring.
  - intros i Hi. rewrite Hx by auto. ring.
  - intros i Hi. rewrite (am_ext _ (fun i => (x i - xs i) + t * p i)) by (intros j Hj; rewrite Hx by auto; ring). apply am_lin.
Qed.
End Dim.
