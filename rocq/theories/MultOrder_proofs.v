(** The symmetric sparse product (math.cpp 11-18) for every scalar type: which products are added, and in what order. *)
From Coq Require Import String.
From Coq Require Import List Arith ZArith NArith Bool Lia Permutation.
From Verif Require Import Base AlgebraModel AlgebraSpec Coo_proofs Csr_proofs Algebra_bridge.
Import ListNotations.

Section Order.
Variable o : Ops.
Notation T := (T o).
Variable z : T.

Lemma modify_lt : forall (r : list T) i f, i < length r -> modify o r i f = Ok (upd r i (f (nth i r z))).
Proof. intros; unfold modify. rewrite (get_lt _ r i z) by auto. cbn [bind]. rewrite set_lt by auto. auto. Qed.

Definition body (x : list T) (i c : nat) (v : T) (r : list T) : res (list T) :=
  xc <- get x c ;; r <- modify o r i (fun t => add o t (mul o v xc)) ;; xi <- get x i ;; modify o r c (fun t => add o t (mul o v xi)).

Lemma row_order : forall x i l r, i < length r -> i < length x ->
  (forall c v, In (c, v) l -> c < length r /\ c < length x /\ i <> c) -> NoDup (map fst l) ->
  exists r', forM_list l (fun cv r => body x i (fst cv) (snd cv) r) r = Ok r' /\ length r' = length r /\
    nth i r' z = fold_left (fun t cv => add o t (mul o (snd cv) (nth (fst cv) x z))) l (nth i r z) /\
    forall k, k <> i -> nth k r' z =
      match find (fun cv => Nat.eqb (fst cv) k) l with Some cv => add o (nth k r z) (mul o (snd cv) (nth i x z)) | None => nth k r z end.
Proof.
  induction l as [|[c v] l IH]; intros r Hi Hx H ND; cbn [forM_list].
  - exists r. repeat split; auto.
  - destruct (H c v) as [H1 [H2 H3]]; [cbn; auto|]. cbn [fst snd map] in *. inversion ND as [|? ? NI ND']; subst.
    unfold body at 1. rewrite (get_lt _ x c z), (get_lt _ x i z) by auto. cbn [bind]. rewrite modify_lt by auto. cbn [bind].
    rewrite modify_lt by (rewrite upd_length; auto). cbn [bind].
    set (r1 := upd (upd r i _) c _).
    assert (L1 : length r1 = length r) by (unfold r1; rewrite !upd_length; auto).
    assert (N1 : nth i r1 z = add o (nth i r z) (mul o v (nth c x z))).
    { unfold r1. rewrite nth_upd_other by auto. rewrite nth_upd_same by auto. reflexivity. }
    assert (N2 : nth c r1 z = add o (nth c r z) (mul o v (nth i x z))).
    { unfold r1. rewrite nth_upd_same by (rewrite upd_length; auto). rewrite nth_upd_other by auto. reflexivity. }
    assert (N3 : forall k, k <> i -> k <> c -> nth k r1 z = nth k r z).
    { intros k K1 K2. unfold r1. rewrite !nth_upd_other by auto. reflexivity. }
    destruct (IH r1) as [r' [E [L [A B]]]]; [lia|auto| |auto|].
    { intros c' v' I. rewrite L1. apply (H c' v'). right; auto. }
    exists r'. split; [exact E|]. split; [congruence|]. split.
    + rewrite A, N1. cbn [fold_left fst snd]. reflexivity.
    + intros k K. rewrite (B k K). cbn [find fst snd]. destruct (Nat.eqb_spec c k) as [->|NE].
      * rewrite N2. destruct (find (fun cv => Nat.eqb (fst cv) k) l) as [[c' v']|] eqn:F; auto.
        apply find_some in F. destruct F as [F1 F2]. cbn in F2. apply Nat.eqb_eq in F2. subst c'. exfalso. apply NI. apply (in_map fst) in F1. exact F1.
      * rewrite N3 by auto. reflexivity.
Qed.

(** columns stored in row i; the rows below i, in descending order down to [lo], that store column i *)
Definition stored (C : csr T) (i j : nat) : bool := match find (fun cv => Nat.eqb (fst cv) j) (row_entries C i) with Some _ => true | None => false end.
Definition cols (C : csr T) (lo k : nat) : list nat := map fst (row_entries C k) ++ filter (fun i => stored C i k) (rev (seq lo (k - lo))).
Definition coef (C : csr T) (i j : nat) : T := if Nat.ltb i j then row_lookup (row_entries C i) j z else row_lookup (row_entries C j) i z.

Lemma lookup_in : forall (l : list (nat * T)) c v, NoDup (map fst l) -> In (c, v) l -> row_lookup l c z = v.
Proof.
  unfold row_lookup. induction l as [|[c' v'] l IH]; intros c v ND I; [destruct I|]. cbn [find fst]. cbn [map fst] in ND. inversion ND; subst.
  destruct I as [I|I].
  - injection I as -> ->. rewrite Nat.eqb_refl. reflexivity.
  - destruct (Nat.eqb_spec c' c) as [->|N]; [exfalso; apply H1; apply (in_map fst) in I; exact I|]. apply IH; auto.
Qed.
Lemma fold_map : forall (l : list (nat * T)) (f : T -> nat -> T -> T) (g : nat -> T) t, (forall c v, In (c, v) l -> g c = v) ->
  fold_left (fun t cv => f t (fst cv) (snd cv)) l t = fold_left (fun t c => f t c (g c)) (map fst l) t.
Proof.
  induction l as [|[c v] l IH]; intros f g t H; auto. cbn [map fold_left fst snd]. rewrite (H c v) by (left; auto). apply IH. intros; apply H; right; auto.
Qed.
Lemma mult_order : forall (C : csr T) r x, wf_csr C -> length r = m C -> length x = m C ->
  exists y, mult_sym o r C x = Ok y /\ length y = m C /\
    forall k, k < m C -> nth k y z = fold_left (fun t j => add o t (mul o (coef C k j) (nth j x z))) (cols C 0 k) (mul o (nth k (diag C) z) (nth k x z)).
Proof.
  intros C r x W Hr Hx. unfold mult_sym.
  destruct (forM_down_inv _ (fun i y => length y = length r /\
    forall k, i <= k < m C -> nth k y z = fold_left (fun t j => add o t (mul o (coef C k j) (nth j x z))) (cols C i k) (mul o (nth k (diag C) z) (nth k x z)))
    (mult_sym_row o C x) (m C) r) as [y [E [L A]]].
  - split; auto. intros; lia.
  - intros i y Hi [L A].
    change (mult_sym_row o C x i y) with (d <- get (diag C) i ;; xi <- get x i ;; r <- set y i (mul o d xi) ;;
      a <- get (row_ptr C) i ;; b <- get (row_ptr C) (i + 1) ;;
      forM_range a b (fun j r => v <- get (val C) j ;; c <- get (col_ind C) j ;; body x i c v r) r).
    rewrite (get_lt _ (diag C) i z) by (rewrite (wf_diag C W); auto). cbn [bind].
    rewrite (get_lt _ x i z) by lia. cbn [bind]. rewrite set_lt by lia. cbn [bind].
    set (y0 := upd y i _).
    pose proof (row_loop (list T) C (body x i) i y0 W Hi) as RL. rewrite RL. clear RL.
    destruct (row_order x i (row_entries C i) y0) as [y' [E' [L' [N1 N2]]]].
    + unfold y0. rewrite upd_length; lia.
    + lia.
    + intros c v I. pose proof (wf_upper C W i c v Hi I). unfold y0. rewrite upd_length. lia.
    + apply (wf_nodup C W i Hi).
    + exists y'. split; [exact E'|]. unfold y0 in L'. rewrite upd_length in L'. split; [lia|]. intros k Hk. destruct (Nat.eq_dec k i) as [->|NE].
      * rewrite N1. unfold y0. rewrite nth_upd_same by lia. unfold cols. rewrite Nat.sub_diag. cbn [seq rev filter]. rewrite app_nil_r.
        rewrite (fold_map (row_entries C i) (fun t c v => add o t (mul o v (nth c x z))) (coef C i)); auto.
        intros c v I. unfold coef. pose proof (wf_upper C W i c v Hi I) as B. assert (Lt : Nat.ltb i c = true) by (apply Nat.ltb_lt; lia). rewrite Lt.
        apply lookup_in; auto. apply (wf_nodup C W i Hi).
      * rewrite N2 by auto. unfold y0. rewrite nth_upd_other by auto. rewrite A by lia.
        assert (CE : cols C i k = cols C (S i) k ++ (if stored C i k then [i] else [])).
        { unfold cols. replace (k - i) with (S (k - S i)) by lia. cbn [seq rev]. rewrite filter_app, app_assoc. cbn [filter]. destruct (stored C i k); auto. }
        rewrite CE, fold_left_app. unfold stored. destruct (find _ (row_entries C i)) as [[c v]|] eqn:F; auto.
        cbn [fold_left snd]. assert (Q : coef C k i = v).
        { unfold coef. assert (Lt : Nat.ltb k i = false) by (apply Nat.ltb_ge; lia). rewrite Lt. unfold row_lookup. rewrite F. reflexivity. }
        rewrite Q. reflexivity.
  - exists y. split; auto. split; [congruence|]. intros k Hk. apply A. lia.
Qed.
End Order.

(** stored positions of the symmetric matrix in row i, without the diagonal *)
Lemma order_spec : forall (o : Ops) (z : T o) (A : coo (T o)) (r x : list (T o)), valid_coo A -> fits A -> all_diag_touched A ->
  length r = cm A -> length x = cm A ->
  exists C y, csr_build z A = Ok C /\ mult_sym o r C x = Ok y /\ length y = cm A /\
    forall i, i < cm A -> exists js, NoDup js /\ (forall j, In j js <-> j < cm A /\ j <> i /\ touched A (Nat.min i j) (Nat.max i j)) /\
      nth i y z = fold_left (fun t j => add o t (mul o (value z A i j) (nth j x z))) js (mul o (value z A i i) (nth i x z)).
Proof.
  intros o z A r x W F D Lr Lx. pose proof (valid_in_range A W (fits_cm A F)) as R. destruct (lossless z A W F D) as [C [E [M [N At]]]].
  destruct F as [F1 F2]. destruct (csr_build_ok z A F1 F2 R (proj1 W) D) as [C' [E' [Wc [_ [_ [_ [Dg RE]]]]]]]. rewrite E in E'; inversion E'; subst C'. clear E'.
  destruct (mult_order o z C r x Wc) as [y [Ey [Ly V]]]; try congruence. rewrite M in *.
  exists C, y. split; auto. split; auto. split; auto. intros i Hi.
  assert (IN : forall a b, a < b -> b < cm A -> (In b (map fst (row_entries C a)) <-> touched A a b)).
  { intros a b Lab Lb. rewrite RE by lia. rewrite map_map. cbn [fst]. unfold touched.
    assert (P : Permutation (sort_keys (elems A)) (elems A)) by apply sort_keys_perm.
    assert (Ua : is_u32 a) by (apply (is_u32_le a (cm A + 1)); auto; lia). assert (Ub : is_u32 b) by (apply (is_u32_le b (cm A + 1)); auto; lia).
    split; intros I; apply in_map_iff in I; destruct I as [[k v] [Ek I]]; cbn [fst] in Ek.
    - apply filter_In in I. destruct I as [I I2]. apply filter_In in I. destruct I as [I _]. unfold rowis in I2. cbn [fst] in I2. apply Nat.eqb_eq in I2.
      apply (Permutation_in _ P) in I. unfold in_range in R. rewrite Forall_forall in R. destruct (R _ I) as [G _]. cbn [fst] in G.
      destruct (good_key_parts _ G) as [_ [_ [_ Kx]]]. apply in_map_iff. exists (k, v). split; auto. cbn [fst]. rewrite Kx. congruence.
    - apply in_map_iff. exists (k, v). cbn [fst]. subst k. rewrite kcol_key by auto. split; auto.
      apply filter_In. split; [apply filter_In; split|].
      + apply (Permutation_in _ (Permutation_sym P)). auto.
      + unfold offd. cbn [fst]. rewrite krow_key, kcol_key by auto. destruct (Nat.eqb_spec a b); [lia|reflexivity].
      + unfold rowis. cbn [fst]. rewrite krow_key by auto. apply Nat.eqb_refl. }
  assert (ST : forall a b, stored o C a b = true <-> In b (map fst (row_entries C a))).
  { intros a b. unfold stored. destruct (find _ (row_entries C a)) as [[c v]|] eqn:Fd.
    - split; auto. intros _. apply find_some in Fd. destruct Fd as [I E1]. cbn in E1. apply Nat.eqb_eq in E1. subst c. apply (in_map fst) in I. exact I.
    - split; [discriminate|]. intros I. exfalso. apply in_map_iff in I. destruct I as [[c v] [E1 I]]. cbn in E1. subst c.
      pose proof (find_none _ _ Fd _ I) as X. cbn in X. rewrite Nat.eqb_refl in X. discriminate. }
  assert (UP : forall a b, a < cm A -> In b (map fst (row_entries C a)) -> a < b < cm A).
  { intros a b La I. apply in_map_iff in I. destruct I as [[c v] [E1 I]]. cbn in E1. subst c. pose proof (wf_upper C Wc a b v) as Q. rewrite M in Q. apply Q; auto. }
  assert (INJ : forall j, In j (cols o C 0 i) <-> j < cm A /\ j <> i /\ touched A (Nat.min i j) (Nat.max i j)).
  { intros j. unfold cols. rewrite in_app_iff, filter_In, <- in_rev, in_seq, ST. split.
    - intros [I|[I1 I2]].
      + pose proof (UP i j Hi I). rewrite Nat.min_l, Nat.max_r by lia. split; [lia|]. split; [lia|]. apply IN; auto; lia.
      + rewrite Nat.min_r, Nat.max_l by lia. split; [lia|]. split; [lia|]. apply IN; auto; lia.
    - intros [J1 [J2 J3]]. destruct (Nat.lt_trichotomy i j) as [L|[L|L]]; [left|lia|right].
      + rewrite Nat.min_l, Nat.max_r in J3 by lia. apply IN; auto.
      + rewrite Nat.min_r, Nat.max_l in J3 by lia. split; [lia|]. apply IN; auto. }
  exists (cols o C 0 i). split; [|split; [exact INJ|]].
  - unfold cols. assert (ND1 : NoDup (map fst (row_entries C i))) by (apply (wf_nodup C Wc); rewrite M; auto).
    assert (ND2 : NoDup (filter (fun i0 => stored o C i0 i) (rev (seq 0 (i - 0))))) by (apply NoDup_filter, NoDup_rev, seq_NoDup).
    assert (DJ : forall j, In j (map fst (row_entries C i)) -> ~ In j (filter (fun i0 => stored o C i0 i) (rev (seq 0 (i - 0))))).
    { intros j I J. apply filter_In in J. destruct J as [J _]. rewrite <- in_rev, in_seq in J. pose proof (UP i j Hi I). lia. }
    revert ND1 DJ. generalize (map fst (row_entries C i)). intros l. induction l as [|a l IH]; intros ND1 DJ; cbn [app]; auto. inversion ND1; subst.
    constructor; [rewrite in_app_iff; intros [Q|Q]; auto; apply (DJ a); auto; left; auto|]. apply IH; auto. intros j I. apply DJ. right; auto.
  - rewrite V by auto. assert (Q0 : nth i (diag C) z = value z A i i) by (unfold value; rewrite Nat.min_id, Nat.max_id; apply Dg; auto). rewrite Q0.
    assert (Q1 : forall j, In j (cols o C 0 i) -> coef o z C i j = value z A i j).
    { intros j I. apply INJ in I. destruct I as [J1 [J2 _]]. pose proof (At i j Hi J1) as Q. rewrite csr_at_wf in Q by (rewrite ?M; auto).
      injection Q as Q. unfold coef. destruct (Nat.eqb_spec i j); [lia|]. exact Q. }
    revert Q1. generalize (cols o C 0 i). generalize (mul o (value z A i i) (nth i x z)). intros t l. revert t. induction l as [|j l IH]; intros t Q1; auto.
    cbn [fold_left]. rewrite (Q1 j) by (left; auto). apply IH. intros; apply Q1; right; auto.
Qed.
