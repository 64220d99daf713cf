(** Cholesky factors and triangular inverses of real matrices, without any reference to the code. *)
From Coq Require Import List Arith Bool Lia Reals Lra.
From Verif Require Import AlgebraModel AlgebraSpec SumR SolversSpec CholSpec.
Local Open Scope R_scope.
Notation mat := (nat -> nat -> R).

Lemma sumn_delta_l : forall n k f, (k < n)%nat -> sumn n (fun i => delta k i * f i) = f k.
Proof.
  intros n k f H. rewrite (sumn_single n k); [|exact H|intros i Hi N; unfold delta; destruct (Nat.eqb_spec k i); [congruence|ring]].
  unfold delta. rewrite Nat.eqb_refl. ring.
Qed.
Lemma sumn_delta_r : forall n k f, (k < n)%nat -> sumn n (fun i => f i * delta i k) = f k.
Proof.
  intros n k f H. rewrite (sumn_single n k); [|exact H|intros i Hi N; unfold delta; destruct (Nat.eqb_spec i k); [congruence|ring]].
  unfold delta. rewrite Nat.eqb_refl. ring.
Qed.

(** positive definite on the unknowns i and above *)
Definition pd_from (n i : nat) (s : mat) : Prop :=
  forall x, (forall k, (k < i)%nat -> x k = 0) -> (exists k, (k < n)%nat /\ x k <> 0) -> 0 < quad n s x.

Lemma quad_shift : forall n s x i t, (forall a b, s a b = s b a) -> (i < n)%nat ->
  quad n s (fun k => x k + t * delta i k) = quad n s x + 2 * t * sumn n (fun b => s i b * x b) + t * t * s i i.
Proof.
  intros n s x i t SY Hi. unfold quad.
  rewrite (sumn_ext n _ (fun a => sumn n (fun b => x a * s a b * x b) + (t * (x a * s a i) + (t * (delta i a * sumn n (fun b => s a b * x b)) + t * t * (delta i a * s a i))))).
  - rewrite !sumn_plus, !sumn_scal. rewrite !sumn_delta_l by auto.
    rewrite (sumn_ext n (fun a => x a * s a i) (fun b => s i b * x b)) by (intros; rewrite (SY i0 i); ring). ring.
  - intros a Ha. rewrite (sumn_ext n _ (fun b => x a * s a b * x b + (t * x a * (s a b * delta b i) + (t * delta i a * (s a b * x b) + t * t * delta i a * (s a b * delta b i))))).
    + rewrite !sumn_plus, !sumn_scal. rewrite !(sumn_delta_r n i (s a)) by auto. ring.
    + intros b Hb. unfold delta. rewrite (Nat.eqb_sym b i). ring.
Qed.

Lemma pd_head : forall n i s, (i < n)%nat -> pd_from n i s -> 0 < s i i.
Proof.
  intros n i s Hi PD. specialize (PD (fun k => delta i k)).
  replace (s i i) with (quad n s (fun k => delta i k)).
  - apply PD; [intros k Hk; unfold delta; destruct (Nat.eqb_spec i k); [lia|auto]|exists i; split; auto; unfold delta; rewrite Nat.eqb_refl; lra].
  - unfold quad. rewrite (sumn_ext n _ (fun a => delta i a * sumn n (fun b => s a b * delta b i))).
    + rewrite sumn_delta_l by auto. apply sumn_delta_r; auto.
    + intros a Ha. rewrite <- sumn_scal. apply sumn_ext. intros b Hb. unfold delta. rewrite (Nat.eqb_sym b i). ring.
Qed.
Lemma pd_schur : forall n i (s s' : mat), (i < n)%nat -> (forall a b, s a b = s b a) -> pd_from n i s ->
  (forall a b, (i < a < n)%nat -> (i < b < n)%nat -> s' a b = s a b - s i a * s i b / s i i) -> pd_from n (S i) s'.
Proof.
  intros n i s s' Hi SY PD H x Z [k [Hk NZ]]. pose proof (pd_head n i s Hi PD) as D.
  set (g := sumn n (fun b => s i b * x b)).
  assert (Q : quad n s' x = quad n s x - g * g / s i i).
  { unfold quad. rewrite (sumn_ext n _ (fun a => sumn n (fun b => x a * s a b * x b) - (g / s i i) * (s i a * x a))).
    - rewrite sumn_minus, sumn_scal. fold g. field. lra.
    - intros a Ha. destruct (le_lt_dec a i) as [L|L].
      + assert (Za : x a = 0) by (apply Z; lia). rewrite !sumn_0; try ring; [rewrite Za; ring| |]; intros; rewrite Za; ring.
      + rewrite (sumn_ext n _ (fun b => x a * s a b * x b - (x a * s i a / s i i) * (s i b * x b))).
        * rewrite sumn_minus, sumn_scal. fold g. field. lra.
        * intros b Hb. destruct (le_lt_dec b i) as [Lb|Lb]; [rewrite (Z b) by lia; ring|]. rewrite H by lia. field. lra. }
  set (t := - g / s i i).
  pose proof (quad_shift n s x i t SY Hi) as E. fold g in E.
  assert (P : 0 < quad n s (fun k => x k + t * delta i k)).
  { apply PD.
    - intros j Hj. rewrite Z by lia. unfold delta. destruct (Nat.eqb_spec i j); [lia|ring].
    - exists k. split; auto. unfold delta. destruct (Nat.eqb_spec i k) as [N|N]; [|lra]. subst k. exfalso. apply NZ. apply Z. lia. }
  rewrite E in P. rewrite Q. unfold t in P.
  replace (quad n s x + 2 * (- g / s i i) * g + - g / s i i * (- g / s i i) * s i i) with (quad n s x - g * g / s i i) in P by (field; lra). auto.
Qed.

(** an upper triangular matrix with no zero on the diagonal is injective *)
Lemma upper_kernel : forall n (u : mat) x, upper n u -> (forall i, (i < n)%nat -> u i i <> 0) ->
  (forall i, (i < n)%nat -> sumn n (fun k => u i k * x k) = 0) -> forall i, (i < n)%nat -> x i = 0.
Proof.
  intros n u x UP NZ K.
  assert (G : forall d i, (i < n)%nat -> (n - i <= d)%nat -> x i = 0).
  { induction d as [|d IH]; intros i Hi L; [lia|].
    specialize (K i Hi). rewrite (sumn_single n i) in K; auto.
    - apply Rmult_integral in K. destruct K; auto. exfalso; apply (NZ i Hi); auto.
    - intros k Hk N. destruct (le_lt_dec k i); [rewrite UP by lia; ring|rewrite (IH k) by lia; ring]. }
  intros i Hi. apply (G (n - i)%nat); lia.
Qed.
(** the same for its transpose *)
Lemma lower_kernel : forall n (u : mat) x, upper n u -> (forall i, (i < n)%nat -> u i i <> 0) ->
  (forall i, (i < n)%nat -> sumn n (fun k => u k i * x k) = 0) -> forall i, (i < n)%nat -> x i = 0.
Proof.
  intros n u x UP NZ K.
  assert (G : forall d i, (i < n)%nat -> (i < d)%nat -> x i = 0).
  { induction d as [|d IH]; intros i Hi L; [lia|].
    specialize (K i Hi). rewrite (sumn_single n i) in K; auto.
    - apply Rmult_integral in K. destruct K; auto. exfalso; apply (NZ i Hi); auto.
    - intros k Hk N. destruct (le_lt_dec i k); [rewrite UP by lia; ring|rewrite (IH k) by lia; ring]. }
  intros i Hi. apply (G (S i)); lia.
Qed.
Lemma right_left : forall n (u v : mat), upper n u -> (forall i, (i < n)%nat -> u i i <> 0) ->
  (forall i j, (i < n)%nat -> (j < n)%nat -> sumn n (fun k => u i k * v k j) = delta i j) -> inverses n u v.
Proof.
  intros n u v UP NZ RI i j Hi Hj. split; auto.
  assert (Z : forall a, (a < n)%nat -> sumn n (fun k => v a k * u k j) - delta a j = 0).
  { apply (upper_kernel n u (fun a => sumn n (fun k => v a k * u k j) - delta a j)); auto.
    intros a Ha. rewrite (sumn_ext n _ (fun b => sumn n (fun k => u a b * v b k * u k j) - u a b * delta b j)).
    - rewrite sumn_minus, sumn_exchange. rewrite sumn_delta_r by auto.
      rewrite (sumn_ext n _ (fun k => delta a k * u k j)); [rewrite sumn_delta_l by auto; ring|].
      intros k Hk. rewrite <- (RI a k Ha Hk). rewrite sumn_scal_r. auto.
    - intros b Hb. rewrite Rmult_minus_distr_l, <- sumn_scal. f_equal. apply sumn_ext. intros; ring. }
  specialize (Z i Hi). lra.
Qed.
Lemma right_unique : forall n (u v w : mat), upper n u -> (forall i, (i < n)%nat -> u i i <> 0) ->
  (forall i j, (i < n)%nat -> (j < n)%nat -> sumn n (fun k => u i k * v k j) = delta i j) ->
  (forall i j, (i < n)%nat -> (j < n)%nat -> sumn n (fun k => u i k * w k j) = delta i j) ->
  forall i j, (i < n)%nat -> (j < n)%nat -> v i j = w i j.
Proof.
  intros n u v w UP NZ V W i j Hi Hj.
  assert (Z : forall a, (a < n)%nat -> v a j - w a j = 0).
  { apply (upper_kernel n u (fun a => v a j - w a j)); auto. intros a Ha.
    rewrite (sumn_ext n _ (fun k => u a k * v k j - u a k * w k j)) by (intros; ring). rewrite sumn_minus, V, W by auto. ring. }
  specialize (Z i Hi). lra.
Qed.
(** the inverse of an upper triangular matrix is upper triangular *)
Lemma inverse_upper : forall n (u v : mat), upper n u -> (forall i, (i < n)%nat -> u i i <> 0) -> inverses n u v ->
  upper n v /\ forall i, (i < n)%nat -> v i i = / u i i.
Proof.
  intros n u v UP NZ IV.
  assert (UV : upper n v).
  { intros i j Hi L.
    assert (G : forall d i, (j < i)%nat -> (i < n)%nat -> (n - i <= d)%nat -> v i j = 0).
    { clear i Hi L. induction d as [|d IH]; intros i L Hi B; [lia|].
      destruct (IV i j Hi ltac:(lia)) as [E _]. rewrite (sumn_single n i) in E; auto.
      - unfold delta in E. destruct (Nat.eqb_spec i j); [lia|]. apply Rmult_integral in E. destruct E; auto. exfalso; apply (NZ i Hi); auto.
      - intros k Hk N. destruct (le_lt_dec k i); [rewrite UP by lia; ring|rewrite (IH k) by lia; ring]. }
    apply (G (n - i)%nat); lia. }
  split; auto. intros i Hi. destruct (IV i i Hi Hi) as [E _]. rewrite (sumn_single n i) in E; auto.
  - unfold delta in E. rewrite Nat.eqb_refl in E. apply (Rmult_eq_reg_l (u i i)); auto. rewrite E. rewrite Rinv_r; auto.
  - intros k Hk N. destruct (le_lt_dec k i); [rewrite UP by lia; ring|rewrite (UV k i) by lia; ring].
Qed.

(** U^T U determines U *)
Lemma chol_unique : forall n (u w : mat), upper n u -> upper n w -> (forall i, (i < n)%nat -> 0 < u i i) -> (forall i, (i < n)%nat -> 0 < w i i) ->
  (forall i j, (i < n)%nat -> (j < n)%nat -> sumn n (fun k => u k i * u k j) = sumn n (fun k => w k i * w k j)) ->
  forall i j, (i < n)%nat -> (j < n)%nat -> u i j = w i j.
Proof.
  intros n u w UU UW PU PW E.
  assert (G : forall d i, (i < d)%nat -> (i < n)%nat -> forall j, (j < n)%nat -> u i j = w i j).
  { induction d as [|d IH]; intros i L Hi j Hj; [lia|].
    assert (Q : forall j, (i <= j)%nat -> (j < n)%nat -> u i i * u i j = w i i * w i j).
    { intros a La Ha. specialize (E i a Hi Ha). rewrite (sumn_split3 n i (fun k => u k i * u k a)), (sumn_split3 n i (fun k => w k i * w k a)) in E by auto.
      match type of E with ?a1 + ?b1 + ?c1 = ?a2 + ?b2 + ?c2 => assert (E1 : b1 = b2); [|assert (E2 : c1 = c2); [|lra]] end.
      - apply sumn_ext. intros k Hk. destruct (Nat.ltb_spec i k); auto. rewrite (UU k i), (UW k i) by lia. ring.
      - apply sumn_ext. intros k Hk. destruct (Nat.ltb_spec k i); auto. rewrite !(IH k) by lia. auto. }
    assert (DI : u i i = w i i).
    { pose proof (Q i ltac:(lia) Hi) as Q0. specialize (PU i Hi). specialize (PW i Hi). nra. }
    destruct (le_lt_dec i j) as [Lj|Lj]; [|rewrite UU, UW by lia; auto].
    pose proof (Q j Lj Hj) as Q0. rewrite DI in Q0. specialize (PW i Hi). apply (Rmult_eq_reg_l (w i i)); lra. }
  intros i j Hi Hj. apply (G (S i)); lia.
Qed.
(** so does V V^T *)
Lemma rchol_unique : forall n (u w : mat), upper n u -> upper n w -> (forall i, (i < n)%nat -> 0 < u i i) -> (forall i, (i < n)%nat -> 0 < w i i) ->
  (forall i j, (i < n)%nat -> (j < n)%nat -> sumn n (fun k => u i k * u j k) = sumn n (fun k => w i k * w j k)) ->
  forall i j, (i < n)%nat -> (j < n)%nat -> u i j = w i j.
Proof.
  intros n u w UU UW PU PW E.
  assert (G : forall d j, (j < n)%nat -> (n - j <= d)%nat -> forall i, (i < n)%nat -> u i j = w i j).
  { induction d as [|d IH]; intros j Hj L i Hi; [lia|].
    assert (Q : forall i, (i <= j)%nat -> u i j * u j j = w i j * w j j).
    { intros a La. specialize (E a j ltac:(lia) Hj). rewrite (sumn_split3 n j (fun k => u a k * u j k)), (sumn_split3 n j (fun k => w a k * w j k)) in E by auto.
      match type of E with ?a1 + ?b1 + ?c1 = ?a2 + ?b2 + ?c2 => assert (E1 : b1 = b2); [|assert (E2 : c1 = c2); [|lra]] end.
      - apply sumn_ext. intros k Hk. destruct (Nat.ltb_spec j k); auto. rewrite !(IH k) by lia. auto.
      - apply sumn_ext. intros k Hk. destruct (Nat.ltb_spec k j); auto. rewrite (UU j k), (UW j k) by lia. ring. }
    assert (DI : u j j = w j j).
    { pose proof (Q j ltac:(lia)) as Q0. specialize (PU j Hj). specialize (PW j Hj). nra. }
    destruct (le_lt_dec i j) as [Lj|Lj]; [|rewrite UU, UW by lia; auto].
    pose proof (Q i Lj) as Q0. rewrite DI in Q0. specialize (PW j Hj). apply (Rmult_eq_reg_r (w j j)); lra. }
  intros i j Hi Hj. apply (G (n - j)%nat); lia.
Qed.

(** products *)
Lemma uv_solves : forall n (a u v : mat) r, (forall i j, (i < n)%nat -> (j < n)%nat -> sumn n (fun k => u k i * u k j) = a i j) -> inverses n u v ->
  forall i, (i < n)%nat -> sumn n (fun j => a i j * sumn n (fun k => v j k * sumn n (fun l => v l k * r l))) = r i.
Proof.
  intros n a u v r A IV i Hi.
  assert (S1 : forall b f, (b < n)%nat -> sumn n (fun j => u b j * sumn n (fun k => v j k * f k)) = f b).
  { intros b f Hb. rewrite (sumn_ext n _ (fun j => sumn n (fun k => u b j * v j k * f k))) by (intros; rewrite <- sumn_scal; apply sumn_ext; intros; ring).
    rewrite sumn_exchange. rewrite (sumn_ext n _ (fun k => delta b k * f k)); [apply sumn_delta_l; auto|].
    intros k Hk. rewrite sumn_scal_r. destruct (IV b k Hb Hk) as [E _]. rewrite E. auto. }
  rewrite (sumn_ext n _ (fun j => sumn n (fun b => u b i * (u b j * sumn n (fun k => v j k * sumn n (fun l => v l k * r l)))))).
  - rewrite sumn_exchange. rewrite (sumn_ext n _ (fun b => sumn n (fun l => v l b * u b i * r l))).
    + rewrite sumn_exchange. rewrite (sumn_ext n _ (fun l => r l * delta l i)); [apply sumn_delta_r; auto|].
      intros l Hl. rewrite sumn_scal_r. destruct (IV l i Hl Hi) as [_ E]. rewrite E. ring.
    + intros b Hb. rewrite sumn_scal. rewrite (S1 b (fun k => sumn n (fun l => v l k * r l)) Hb). rewrite <- sumn_scal. apply sumn_ext. intros; ring.
  - intros j Hj. rewrite <- (A i j Hi Hj). rewrite <- sumn_scal_r. apply sumn_ext. intros; ring.
Qed.
