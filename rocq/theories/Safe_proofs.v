(** Memory safety of the products, kernels and solvers, for an arbitrary scalar type (solvers.cpp, math.cpp). *)
From Coq Require Import String.
From Coq Require Import List Arith ZArith NArith Bool Lia.
From Verif Require Import Base AlgebraModel Csr_proofs SolversModel.
Import ListNotations.

(** ends normally with P, or with a non-finite number; never UB, never an exception *)
Definition safeP {A} (P : A -> Prop) (r : res A) : Prop :=
  match r with Ok a => P a | NonFin _ => True | _ => False end.

Lemma safe_ok : forall A (P : A -> Prop) a, P a -> safeP P (Ok a).
Proof. auto. Qed.
Lemma safe_bind : forall A B (P : A -> Prop) (Q : B -> Prop) x f,
  safeP P x -> (forall a, P a -> safeP Q (f a)) -> safeP Q (bind x f).
Proof. intros A B P Q x f H K; destruct x; cbn in *; auto. Qed.
Lemma safe_weaken : forall A (P Q : A -> Prop) x, safeP P x -> (forall a, P a -> Q a) -> safeP Q x.
Proof. intros A P Q x H K; destruct x; cbn in *; auto. Qed.
Lemma safe_get : forall A (l : list A) i, i < length l -> safeP (fun _ => True) (get l i).
Proof. intros A l i H. destruct (get l i) eqn:E; cbn; auto; unfold get in E; destruct (nth_error l i) eqn:N; try discriminate; apply nth_error_None in N; lia. Qed.
Lemma safe_get_nth : forall A (l : list A) i d, i < length l -> safeP (fun x => x = nth i l d) (get l i).
Proof. intros A l i d H. rewrite (get_lt _ l i d) by auto. cbn; auto. Qed.
Lemma safe_set : forall A (l : list A) i a, i < length l -> safeP (fun l' => length l' = length l) (set l i a).
Proof. intros A l i a H. rewrite set_lt by auto. cbn. apply upd_length. Qed.
Lemma safe_from : forall S (P : S -> Prop) body n a s,
  P s -> (forall i s, a <= i < a + n -> P s -> safeP P (body i s)) -> safeP P (forM_from n a body s).
Proof.
  intros S P body; induction n as [|n IH]; intros a s H K; cbn; auto.
  eapply safe_bind; [apply K; [lia|auto]|]. intros s' Hs'. apply IH; auto. intros; apply K; auto; lia.
Qed.
Lemma safe_up : forall S (P : S -> Prop) body n s,
  P s -> (forall i s, i < n -> P s -> safeP P (body i s)) -> safeP P (forM_up n body s).
Proof. intros. apply safe_from; auto. intros; apply H0; auto; lia. Qed.
Lemma safe_range : forall S (P : S -> Prop) body a b s,
  P s -> (forall i s, a <= i < b -> P s -> safeP P (body i s)) -> safeP P (forM_range a b body s).
Proof. intros. apply safe_from; auto. intros; apply H0; auto; lia. Qed.
Lemma safe_down : forall S (P : S -> Prop) body n s,
  P s -> (forall i s, i < n -> P s -> safeP P (body i s)) -> safeP P (forM_down n body s).
Proof.
  intros S P body; induction n as [|n IH]; intros s H K; cbn; auto.
  eapply safe_bind; [apply K; [lia|auto]|]. intros s' Hs'. apply IH; auto.
Qed.

(** ** Index facts of a well-formed CSR matrix *)
Section Pattern.
Context {V : Type}.


Lemma nth_error_skipn : forall A n (l : list A) i, nth_error (skipn n l) i = nth_error l (n + i).
Proof. induction n as [|n IH]; intros [|x l] i; cbn; auto. destruct i; auto. Qed.
Lemma nth_error_firstn : forall A n (l : list A) i, i < n -> nth_error (firstn n l) i = nth_error l i.
Proof. induction n as [|n IH]; intros [|x l] [|i] H; cbn; auto; try lia. apply IH; lia. Qed.
Lemma nth_error_combine : forall A B (l1 : list A) (l2 : list B) i a b,
  nth_error l1 i = Some a -> nth_error l2 i = Some b -> nth_error (combine l1 l2) i = Some (a, b).
Proof. induction l1 as [|x l1 IH]; intros [|y l2] [|i] a b H1 H2; cbn in *; try discriminate; auto. congruence. Qed.

Lemma slice_nth_error : forall A (l : list A) a b k, a <= k < b -> nth_error (slice a b l) (k - a) = nth_error l k.
Proof. intros A l a b k H. unfold slice. rewrite nth_error_firstn by lia. rewrite nth_error_skipn. f_equal; lia. Qed.

Lemma wf_col : forall (C : csr V) i k, wf_csr C -> i < m C ->
  nth i (row_ptr C) 0 <= k < nth (i + 1) (row_ptr C) 0 ->
  k < length (col_ind C) /\ k < length (val C) /\ i < nth k (col_ind C) 0 < m C.
Proof.
  intros C i k W Hi Hk. pose proof (wf_bound C W (i + 1) ltac:(lia)) as B. pose proof (wf_cv C W) as L.
  split; [lia|]. split; [lia|].
  destruct (nth_error (col_ind C) k) as [c|] eqn:Ec; [|apply nth_error_None in Ec; lia].
  destruct (nth_error (val C) k) as [v|] eqn:Ev; [|apply nth_error_None in Ev; lia].
  rewrite (nth_error_nth _ _ 0 Ec). apply (wf_upper C W i c v Hi).
  unfold row_entries. eapply nth_error_In with (n := k - nth i (row_ptr C) 0).
  apply nth_error_combine; rewrite slice_nth_error by lia; auto.
Qed.

(** same sparsity pattern *)
Definition same_pattern (A R : csr V) : Prop :=
  row_ptr R = row_ptr A /\ col_ind R = col_ind A /\ m R = m A /\ nnz R = nnz A /\
  length (val R) = length (val A) /\ length (diag R) = length (diag A).

Lemma slice_length : forall A (l : list A) a b, b <= length l -> length (slice a b l) = b - a.
Proof. intros; unfold slice. rewrite firstn_length, skipn_length. lia. Qed.
Lemma map_fst_combine : forall A B (l1 : list A) (l2 : list B), length l1 = length l2 -> map fst (combine l1 l2) = l1.
Proof. induction l1 as [|x l1 IH]; intros [|y l2] H; cbn in *; auto; try discriminate. f_equal; auto. Qed.

Lemma row_cols : forall C : csr V, wf_csr C -> forall i, i < m C ->
  map fst (row_entries C i) = slice (nth i (row_ptr C) 0) (nth (i + 1) (row_ptr C) 0) (col_ind C).
Proof.
  intros C W i Hi. unfold row_entries. apply map_fst_combine.
  pose proof (wf_bound C W (i + 1) ltac:(lia)). pose proof (wf_cv C W). rewrite !slice_length by lia. auto.
Qed.

Lemma same_pattern_wf : forall A R, wf_csr A -> same_pattern A R -> wf_csr R.
Proof.
  intros A R W [E1 [E2 [E3 [E4 [E5 E6]]]]].
  assert (C : forall i, i < m A -> map fst (row_entries R i) = map fst (row_entries A i)).
  { intros i Hi. pose proof (wf_bound A W (i + 1) ltac:(lia)). pose proof (wf_cv A W).
    unfold row_entries. rewrite !map_fst_combine; rewrite ?E1, ?E2; auto; rewrite !slice_length; lia. }
  constructor.
  - rewrite E1, E3. apply (wf_rp A W).
  - rewrite E6, E3. apply (wf_diag A W).
  - rewrite E2, E5. apply (wf_cv A W).
  - rewrite E1, E3. apply (wf_mono A W).
  - rewrite E1, E2, E3. apply (wf_bound A W).
  - rewrite E3. intros i c v Hi I. apply (in_map fst) in I. cbn in I. rewrite C in I by auto.
    apply in_map_iff in I. destruct I as [[c' v'] [Q I]]. cbn in Q; subst c'. apply (wf_upper A W i c v' Hi I).
  - rewrite E3. intros i Hi. rewrite C by auto. apply (wf_nodup A W i Hi).
Qed.
Lemma same_pattern_refl : forall A, same_pattern A A.
Proof. unfold same_pattern; intuition. Qed.
End Pattern.

Section Safe.
Variable o : Ops.
Notation T := (T o).
(** the scalar operations themselves neither crash nor throw *)
Definition total_ops : Prop :=
  (forall a b, safeP (fun _ => True) (div o a b)) /\ (forall a, safeP (fun _ => True) (fsqrt o a)).
Hypothesis TO : total_ops.

Definition len (n : nat) (l : list T) : Prop := length l = n.

Lemma safe_modify : forall (l : list T) i f n, len n l -> i < n -> safeP (len n) (modify o l i f).
Proof.
  unfold len; intros l i f n L H. unfold modify. eapply safe_bind; [apply safe_get; lia|]. intros a _.
  eapply safe_weaken; [apply safe_set; lia|]. cbn; intros; lia.
Qed.
Lemma safe_set_len : forall (l : list T) i a n, len n l -> i < n -> safeP (len n) (set l i a).
Proof. unfold len; intros. eapply safe_weaken; [apply safe_set; lia|]. cbn; intros; lia. Qed.
Lemma safe_zip2 : forall f (a b : list T), length a <= length b -> safeP (len (length a)) (zip2 o f a b).
Proof.
  unfold len; induction a as [|x a IH]; intros [|y b] H; cbn in *; auto; try lia.
  eapply safe_bind; [apply IH; lia|]. cbn; intros; lia.
Qed.
Lemma safe_zip2n : forall f (a b : list T) n, len n a -> len n b -> safeP (len n) (zip2 o f a b).
Proof. unfold len; intros f a b n H1 H2. subst n. apply safe_zip2. lia. Qed.
Lemma safe_inner : forall (a b : list T) acc, length a <= length b -> safeP (fun _ => True) (inner_product o a b acc).
Proof. induction a as [|x a IH]; intros [|y b] acc H; cbn in *; auto; try lia. apply IH; lia. Qed.
Lemma safe_dot : forall (a b : list T) n, len n a -> len n b -> safeP (fun _ => True) (dot o a b).
Proof. unfold len; intros. apply safe_inner. lia. Qed.
Lemma safe_sq : forall (a : list T), safeP (fun _ => True) (squareSum o a).
Proof. intros. apply safe_inner. lia. Qed.
Lemma safe_div : forall a b, safeP (fun _ => True) (div o a b).
Proof. apply TO. Qed.
Lemma safe_sqrt : forall a, safeP (fun _ => True) (fsqrt o a).
Proof. apply TO. Qed.
Lemma len_zeros : forall n, len n (zeros o n).
Proof. intros; unfold len, zeros. apply repeat_length. Qed.

(** a loop over row i *)
Lemma safe_row : forall S (C : csr T) (P : S -> Prop) i body s, wf_csr C -> i < m C -> P s ->
  (forall k c s, k < length (val C) -> k < length (col_ind C) -> get (col_ind C) k = Ok c -> i < c < m C -> P s -> safeP P (body k s)) ->
  safeP P (a <- get (row_ptr C) i ;; b <- get (row_ptr C) (i + 1) ;; forM_range a b body s).
Proof.
  intros S C P i body s W Hi Hs H. pose proof (wf_rp C W).
  rewrite (get_lt _ (row_ptr C) i 0) by lia. rewrite (get_lt _ (row_ptr C) (i + 1) 0) by lia. cbn [bind].
  apply safe_range; auto. intros k s' Hk Hs'. destruct (wf_col C i k W Hi Hk) as [A1 [A2 A3]].
  eapply H; eauto. apply get_lt; auto.
Qed.

Lemma csr_at_ok : forall v0 (C : csr T) i j, wf_csr C -> i < m C -> j < m C -> safeP (fun _ => True) (csr_at v0 C i j).
Proof. intros. rewrite csr_at_wf by auto. cbn; auto. Qed.

Ltac sb := eapply safe_bind; [solve [eauto using safe_div, safe_sqrt, safe_dot, safe_sq, safe_zip2n, safe_set_len, safe_modify, csr_at_ok, len_zeros | apply safe_get; unfold len in *; lia] | cbv beta; intros ? ?].

Lemma safe_mult_sym : forall (C : csr T) r x n, wf_csr C -> m C = n -> len n r -> len n x -> safeP (len n) (mult_sym o r C x).
Proof.
  intros C r x n W M L Lx. pose proof (wf_diag C W). apply safe_down; auto. intros i r' Hi Hr.
  unfold mult_sym_row. sb. sb. eapply safe_bind; [apply (safe_set_len _ _ _ n); auto; lia|]. intros r2 L2.
  apply safe_row; auto. intros k c s K1 K2 Hc Hci Ls. sb. rewrite Hc; cbn [bind].
  sb. eapply safe_bind; [apply (safe_modify _ _ _ n); auto; lia|]. intros r3 L3. sb. apply safe_modify; auto; lia.
Qed.
Lemma safe_mult_upper : forall (C : csr T) r x n, wf_csr C -> m C = n -> len n r -> len n x -> safeP (len n) (mult_upper o r C x).
Proof.
  intros C r x n W M L Lx. pose proof (wf_diag C W). apply safe_down; auto. intros i r' Hi Hr.
  unfold mult_upper_row. sb. sb. eapply safe_bind; [apply (safe_set_len _ _ _ n); auto; lia|]. intros r2 L2.
  apply safe_row; auto. intros k c s K1 K2 Hc Hci Ls. sb. rewrite Hc; cbn [bind].
  sb. apply safe_modify; auto; lia.
Qed.
Lemma safe_mult_lower : forall (C : csr T) r x n, wf_csr C -> m C = n -> len n r -> len n x -> safeP (len n) (mult_lower o r C x).
Proof.
  intros C r x n W M L Lx. pose proof (wf_diag C W). apply safe_down; auto. intros i r' Hi Hr.
  unfold mult_lower_row. sb. sb. eapply safe_bind; [apply (safe_set_len _ _ _ n); auto; lia|]. intros r2 L2.
  apply safe_row; auto. intros k c s K1 K2 Hc Hci Ls. sb. rewrite Hc; cbn [bind].
  sb. apply safe_modify; auto; lia.
Qed.

Lemma ssor_start : forall n, is_u32 n -> 1 <= n -> u32_sub n 1 + 1 = n.
Proof. intros. rewrite u32_sub_le by auto. lia. Qed.

Lemma safe_ssor : forall (C : csr T) r cv omega n, wf_csr C -> is_u32 n -> 1 <= n -> m C = n -> len n r -> len n cv ->
  safeP (len n) (ssor o C r cv omega).
Proof.
  intros C r cv omega n W U N1 M L Lc. pose proof (wf_diag C W). unfold ssor.
  eapply safe_bind; [apply (safe_up _ (len n)); auto; intros i s Hi Hs; sb; apply safe_set_len; auto; lia|]. intros r1 L1.
  eapply safe_bind; [apply (safe_up _ (len n)); auto; intros i s Hi Hs|].
  { sb. sb. sb. eapply safe_bind; [apply (safe_set_len _ _ _ n); auto; lia|]. intros r2 L2.
    apply safe_row; auto. intros k c s' K1 K2 Hc Hci Ls. sb. rewrite Hc; cbn [bind]. sb. apply safe_modify; auto; lia. }
  intros r2 L2.
  eapply safe_bind; [apply (safe_up _ (len n)); auto; intros i s Hi Hs; sb; apply safe_modify; auto; lia|].
  intros r3 L3. rewrite M, ssor_start by auto.
  apply safe_down; auto. intros i s Hi Hs.
  pose proof (wf_rp C W).
  assert (RW : safeP (len n) (a <- get (row_ptr C) i ;; b <- get (row_ptr C) (i + 1) ;;
     forM_range a b (fun k r => v <- get (val C) k ;; c <- get (col_ind C) k ;; rc <- get r c ;;
           modify o r i (fun t => sub o t (mul o (mul o v rc) omega))) s)).
  { apply safe_row; auto; [lia|]. intros k c s' K1 K2 Hc Hci Ls. sb. rewrite Hc; cbn [bind]. sb. apply safe_modify; auto; lia. }
  rewrite (get_lt _ (row_ptr C) i 0) in * by lia. rewrite (get_lt _ (row_ptr C) (i + 1) 0) in * by lia. cbn [bind] in *.
  eapply safe_bind; [apply RW|]. intros r4 L4. sb. sb. sb. apply safe_set_len; auto; lia.
Qed.

(** ** Incomplete Cholesky: stays in bounds and keeps the pattern *)
Lemma sp_val : forall A R v, same_pattern A R -> length v = length (val R) -> @same_pattern T A (with_val o R v).
Proof. unfold same_pattern, with_val; cbn; intuition congruence. Qed.
Lemma sp_diag : forall A R v, same_pattern A R -> length v = length (diag R) -> @same_pattern T A (with_diag o R v).
Proof. unfold same_pattern, with_diag; cbn; intuition congruence. Qed.

Section IC.
Variable A : csr T.
Hypothesis W : wf_csr A.
Local Notation SP := (same_pattern A).

Lemma sp_facts : forall R, SP R -> wf_csr R /\ m R = m A /\ length (diag R) = m A /\ length (val R) = length (val A).
Proof.
  intros R H. assert (WR := same_pattern_wf A R W H). split; auto. destruct H as [E1 [E2 [E3 [E4 [E5 E6]]]]].
  split; auto. split; [rewrite E6; apply (wf_diag A W)|auto].
Qed.

(** a loop over a row of R whose body changes R; the loop bounds are read before *)
Lemma safe_row_sp : forall R i body, SP R -> i < m A ->
  (forall k c R', k < length (val A) -> get (col_ind R') k = Ok c -> i < c < m A -> SP R' -> safeP SP (body k R')) ->
  safeP SP (a <- get (row_ptr R) i ;; b <- get (row_ptr R) (i + 1) ;; forM_range a b body R).
Proof.
  intros R i body H Hi K. destruct (sp_facts R H) as [WR [M [LD LV]]].
  apply safe_row; auto; [lia|]. intros k c R' K1 K2 Hc Hci HR'.
  apply (K k c R'); auto; try lia.
  destruct H as [_ [EC _]]. destruct HR' as [_ [EC' _]]. rewrite EC', <- EC. auto.
Qed.

Lemma safe_ic_col : forall i j R, SP R -> i < m A -> j < m A -> safeP SP (ic_col o i j R).
Proof.
  intros i j R H Hi Hj. destruct (sp_facts R H) as [WR [M [LD LV]]]. unfold ic_col.
  sb. eapply safe_bind; [apply csr_at_ok; auto; lia|]. intros a1 _. eapply safe_bind; [apply csr_at_ok; auto; lia|]. intros a2 _.
  eapply safe_bind; [apply safe_set; lia|]. intros d Ld. cbv zeta.
  assert (HSP : SP (with_diag o R d)) by (apply sp_diag; auto).
  apply safe_row_sp; auto. intros k c R' Hk Hc Hcj H'. destruct (sp_facts R' H') as [WR' [M' [LD' LV']]].
  rewrite Hc. cbn [bind]. destruct (Nat.leb j c); [|apply safe_ok; auto].
  sb. eapply safe_bind; [apply csr_at_ok; auto; lia|]. intros x _. eapply safe_bind; [apply csr_at_ok; auto; lia|]. intros y _.
  eapply safe_bind; [apply safe_set; lia|]. intros vl Lv. apply safe_ok. apply sp_val; auto.
Qed.

Lemma safe_ic_row : forall i R, SP R -> i < m A -> safeP SP (ic_row o i R).
Proof.
  intros i R H Hi. destruct (sp_facts R H) as [WR [M [LD LV]]]. unfold ic_row.
  sb. sb. eapply safe_bind; [apply safe_set; lia|]. intros d Ld. cbv zeta.
  assert (HSP : SP (with_diag o R d)) by (apply sp_diag; auto).
  pose proof (safe_row_sp (with_diag o R d) i (fun k R => v <- get (val R) k ;; d <- get (diag R) i ;; q <- div o v d ;;
         vl <- set (val R) k q ;; Ok (with_val o R vl)) HSP Hi) as RW.
  assert (LR : length (row_ptr (with_diag o R d)) = m A + 1) by (cbn; rewrite (wf_rp R WR); lia).
  rewrite (get_lt _ (row_ptr (with_diag o R d)) i 0) in * by lia.
  rewrite (get_lt _ (row_ptr (with_diag o R d)) (i + 1) 0) in * by lia. cbn [bind] in *.
  eapply safe_bind; [apply RW|].
  - intros k c R' Hk Hc Hcj H'. destruct (sp_facts R' H') as [WR' [M' [LD' LV']]].
    sb. sb. sb. eapply safe_bind; [apply safe_set; lia|]. intros vl Lv. apply safe_ok. apply sp_val; auto.
  - intros R2 H2. destruct (sp_facts R2 H2) as [WR2 [M2 _]]. apply safe_range; auto. intros j R3 Hj H3. apply safe_ic_col; auto; lia.
Qed.

Lemma safe_ic_inv_entry : forall i j R, SP R -> i < m A -> j < m A -> safeP SP (ic_inv_entry o i j R).
Proof.
  intros i j R H Hi Hj. destruct (sp_facts R H) as [WR [M [LD LV]]]. unfold ic_inv_entry.
  pose proof (safe_row T R (fun _ => True) i (fun k acc => c <- get (col_ind R) k ;;
           if Nat.leb c j then v <- get (val R) k ;; x <- csr_at (zero o) R c j ;; Ok (add o acc (mul o v x)) else Ok acc) (zero o) WR) as RS.
  pose proof (fun q => safe_row_sp R i (fun k R => c <- get (col_ind R) k ;; if Nat.eqb c j then d <- get (diag R) i ;;
        vl <- set (val R) k (mul o (opp o q) d) ;; Ok (with_val o R vl) else Ok R) H Hi) as RW.
  pose proof (wf_rp R WR) as LR.
  rewrite (get_lt _ (row_ptr R) i 0) in * by lia.
  rewrite (get_lt _ (row_ptr R) (i + 1) 0) in * by lia. cbn [bind] in *.
  eapply safe_bind; [apply RS; auto; [lia|]|].
  - intros k c s K1 K2 Hc Hci _. rewrite Hc. cbn [bind]. destruct (Nat.leb c j); [|apply safe_ok; auto].
    sb. eapply safe_bind; [apply csr_at_ok; auto; lia|]. intros x _. apply safe_ok; auto.
  - intros q _. destruct (eqb o q (zero o)); [apply safe_ok; auto|]. apply RW.
    intros k c R' Hk Hc Hcj H'. destruct (sp_facts R' H') as [WR' [M' [LD' LV']]].
    rewrite Hc. cbn [bind]. destruct (Nat.eqb c j); [|apply safe_ok; auto].
    sb. eapply safe_bind; [apply safe_set; lia|]. intros vl Lv. apply safe_ok. apply sp_val; auto.
Qed.

Lemma safe_ic_inv_row : forall i R, SP R -> i < m A -> safeP SP (ic_inv_row o i R).
Proof.
  intros i R H Hi. destruct (sp_facts R H) as [WR [M [LD LV]]]. unfold ic_inv_row.
  sb. sb. eapply safe_bind; [apply safe_set; lia|]. intros d Ld. cbv zeta.
  assert (HSP : SP (with_diag o R d)) by (apply sp_diag; auto).
  apply safe_down; auto. intros t R' Ht H'. cbn in Ht. apply safe_ic_inv_entry; auto. lia.
Qed.

Lemma safe_ic_decomposition : safeP SP (ic_decomposition o A).
Proof.
  unfold ic_decomposition, ic_factor. eapply safe_bind.
  - apply (safe_up _ SP); [apply same_pattern_refl|]. intros; apply safe_ic_row; auto.
  - intros R H. destruct (sp_facts R H) as [WR [M _]]. apply safe_down; auto. intros i R' Hi H'. apply safe_ic_inv_row; auto; lia.
Qed.
End IC.

(** ** Solvers *)
Definition good (n : nat) (r : list T * option nat) : Prop := length (fst r) = n.

Lemma safe_initial : forall (A : csr T) b x n, wf_csr A -> m A = n -> len n b -> len n x -> safeP (len n) (initial_residual o A b x).
Proof.
  intros A b x n W M Lb Lx. unfold initial_residual. unfold len in Lb. rewrite Lb.
  eapply safe_bind; [apply (safe_mult_sym A _ _ n); auto; apply len_zeros|]. intros r Lr. apply safe_zip2n; auto.
Qed.

Lemma safe_cg_loop : forall (A : csr T) e n k i x r p rTr Ap, wf_csr A -> m A = n ->
  len n x -> len n r -> len n p -> len n Ap -> safeP (good n) (cg_loop o A e k i x r p rTr Ap).
Proof.
  intros A e n; induction k as [|k IH]; intros i x r p rTr Ap W M Lx Lr Lp La; cbn [cg_loop]; [exact Lx|].
  eapply safe_bind; [apply (safe_mult_sym A _ _ n); auto|]. intros Ap1 La1. sb. sb.
  unfold axpy. sb. sb. sb. destruct (ltb _ _ _); [apply safe_ok; auto|]. sb. sb. apply IH; auto.
Qed.
Lemma safe_cg : forall (A : csr T) b x e k n, wf_csr A -> m A = n -> len n b -> len n x -> safeP (good n) (cg o A b x e k).
Proof.
  intros A b x e k n W M Lb Lx. unfold cg. eapply safe_bind; [apply (safe_initial A b x n); auto|]. intros r Lr. sb.
  apply safe_cg_loop; auto. unfold len in Lb; rewrite Lb; apply len_zeros.
Qed.

Lemma safe_jacobi_loop : forall (A : csr T) P e n k i x r z p Ap, wf_csr A -> m A = n ->
  len n P -> len n x -> len n r -> len n z -> len n p -> len n Ap -> safeP (good n) (jacobi_loop o A P e k i x r z p Ap).
Proof.
  intros A P e n; induction k as [|k IH]; intros i x r z p Ap W M LP Lx Lr Lz Lp La; cbn [jacobi_loop]; [exact Lx|].
  eapply safe_bind; [apply (safe_mult_sym A _ _ n); auto|]. intros Ap1 La1. sb. sb. sb. sb.
  unfold axpy, hadamard. sb. sb. sb. destruct (ltb _ _ _); [apply safe_ok; auto|]. sb. sb. sb. sb. apply IH; auto.
Qed.
Lemma safe_jacobi : forall (A : csr T) b x e k n, wf_csr A -> m A = n -> len n b -> len n x -> safeP (good n) (jacobi_pcg o A b x e k).
Proof.
  intros A b x e k n W M Lb Lx. unfold jacobi_pcg. eapply safe_bind; [apply (safe_initial A b x n); auto|]. intros r Lr.
  unfold len in Lb; rewrite Lb. pose proof (wf_diag A W).
  eapply safe_bind; [apply (safe_up _ (len n)); [apply len_zeros|]|].
  - intros i P Hi LP. sb. sb. apply safe_set_len; auto; lia.
  - intros P LP. unfold hadamard. sb. apply safe_jacobi_loop; auto. apply len_zeros.
Qed.

Lemma safe_ssor_loop : forall (A : csr T) w e n k i x r z p Ap rTz, wf_csr A -> is_u32 n -> 1 <= n -> m A = n ->
  len n x -> len n r -> len n z -> len n p -> len n Ap -> safeP (good n) (ssor_loop o A w e k i x r z p Ap rTz).
Proof.
  intros A w e n; induction k as [|k IH]; intros i x r z p Ap rTz W U N1 M Lx Lr Lz Lp La; cbn [ssor_loop]; [exact Lx|].
  eapply safe_bind; [apply (safe_mult_sym A _ _ n); auto|]. intros Ap1 La1. sb. sb.
  unfold axpy. sb. sb. sb. destruct (ltb _ _ _); [apply safe_ok; auto|].
  eapply safe_bind; [apply (safe_ssor A _ _ _ n); auto|]. intros z1 Lz1. sb. sb. sb. apply IH; auto.
Qed.
Lemma safe_ssor_pcg : forall (A : csr T) b x w e k n, wf_csr A -> is_u32 n -> 1 <= n -> m A = n -> len n b -> len n x ->
  safeP (good n) (ssor_pcg o A b x w e k).
Proof.
  intros A b x w e k n W U N1 M Lb Lx. unfold ssor_pcg. eapply safe_bind; [apply (safe_initial A b x n); auto|]. intros r Lr.
  unfold len in Lb; rewrite Lb.
  eapply safe_bind; [apply (safe_ssor A _ _ _ n); auto; apply len_zeros|]. intros z Lz. sb. sb.
  destruct (ltb _ _ _); [apply safe_ok; auto|]. apply safe_ssor_loop; auto. apply len_zeros.
Qed.

Lemma safe_ic_apply : forall (L : csr T) t z r n, wf_csr L -> m L = n -> len n t -> len n z -> len n r ->
  safeP (fun q => len n (fst q) /\ len n (snd q)) (ic_apply o L t z r).
Proof.
  intros L t z r n W M Lt Lz Lr. unfold ic_apply.
  eapply safe_bind; [apply (safe_mult_lower L _ _ n); auto|]. intros t1 Lt1.
  eapply safe_bind; [apply (safe_mult_upper L _ _ n); auto|]. intros z1 Lz1. apply safe_ok; auto.
Qed.
Lemma safe_ic_loop : forall (A L : csr T) e n k i x r z tmp p Ap, wf_csr A -> wf_csr L -> m A = n -> m L = n ->
  len n x -> len n r -> len n z -> len n tmp -> len n p -> len n Ap -> safeP (good n) (ic_loop o A L e k i x r z tmp p Ap).
Proof.
  intros A L e n; induction k as [|k IH]; intros i x r z tmp p Ap W WL M ML Lx Lr Lz Lt Lp La; cbn [ic_loop]; [exact Lx|].
  eapply safe_bind; [apply (safe_mult_sym A _ _ n); auto|]. intros Ap1 La1. sb. sb. sb. sb.
  unfold axpy. sb. sb. sb. destruct (ltb _ _ _); [apply safe_ok; auto|].
  eapply safe_bind; [apply (safe_ic_apply L _ _ _ n); auto|]. intros [t1 z1] [Lt1 Lz1]. cbn in Lt1, Lz1. sb. sb. sb. apply IH; auto.
Qed.
Lemma safe_ic_pcg : forall (A : csr T) b x e k n, wf_csr A -> m A = n -> len n b -> len n x -> safeP (good n) (ic_pcg o A b x e k).
Proof.
  intros A b x e k n W M Lb Lx. unfold ic_pcg. eapply safe_bind; [apply (safe_initial A b x n); auto|]. intros r Lr.
  unfold len in Lb; rewrite Lb.
  eapply safe_bind; [apply safe_ic_decomposition; auto|]. intros L SP. assert (WL := same_pattern_wf A L W SP).
  assert (ML : m L = n) by (destruct SP as [_ [_ [E _]]]; congruence).
  eapply safe_bind; [apply (safe_ic_apply L _ _ _ n); auto; apply len_zeros|]. intros [t1 z1] [Lt1 Lz1]. cbn in Lt1, Lz1. sb.
  destruct (ltb _ _ _); [apply safe_ok; auto|]. apply safe_ic_loop; auto. apply len_zeros.
Qed.
End Safe.
