(** The three sparse products (math.cpp 11-55) over exact arithmetic. *)
From Coq Require Import String.
From Coq Require Import List Arith ZArith NArith Bool Lia Reals Lra.
From Verif Require Import Base AlgebraModel AlgebraSpec Coo_proofs Csr_proofs SumR.
Import ListNotations.
Local Open Scope R_scope.


(** upper-triangular entry (i<j) of a CSR matrix, 0 if not stored *)
Definition up (C : rcsr) (i j : nat) : R := row_lookup (row_entries C i) j 0.
(** full symmetric entry *)
Definition ent (C : rcsr) (i j : nat) : R :=
  if Nat.eqb i j then vget (diag C) i else if Nat.ltb i j then up C i j else up C j i.

Lemma csr_at_ent : forall C i j, wf_csr C -> (i < m C)%nat -> (j < m C)%nat -> csr_at 0 C i j = Ok (ent C i j).
Proof. intros C i j W Hi Hj. rewrite csr_at_wf by auto. reflexivity. Qed.

Lemma ent_sym : forall C i j, ent C i j = ent C j i.
Proof.
  intros C i j; unfold ent. destruct (Nat.eqb_spec i j), (Nat.eqb_spec j i), (Nat.ltb_spec i j), (Nat.ltb_spec j i); subst; auto; lia.
Qed.

(** sums over a row *)
Lemma lsum_ext : forall l f g, (forall c v, In (c, v) l -> f c v = g c v) -> lsum l f = lsum l g.
Proof. unfold lsum; induction l as [|[c v] l IH]; intros f g H; cbn; auto. rewrite (H c v), (IH f g); cbn; auto. intros; apply H; cbn; auto. Qed.

Lemma lsum_scatter : forall l k (y : R), NoDup (map fst l) ->
  lsum l (fun c v => if Nat.eqb c k then v * y else 0) = row_lookup l k 0 * y.
Proof.
  unfold lsum, row_lookup; induction l as [|[c v] l IH]; intros k y ND; cbn; [ring|]. inversion ND; subst.
  destruct (Nat.eqb_spec c k) as [E|E].
  - subst. cbn. rewrite IH by auto.
    assert (F : find (fun cv => Nat.eqb (fst cv) k) l = None).
    { destruct (find _ l) as [[c' v']|] eqn:F; auto. apply find_some in F. destruct F as [I E]. cbn in E. apply Nat.eqb_eq in E. subst.
      exfalso; apply H1. apply (in_map fst) in I; auto. }
    rewrite F. ring.
  - rewrite IH by auto. ring.
Qed.

Lemma lsum_gather : forall l n (x : nat -> R), NoDup (map fst l) -> (forall c v, In (c, v) l -> (c < n)%nat) ->
  lsum l (fun c v => v * x c) = sumn n (fun j => row_lookup l j 0 * x j).
Proof.
  intros l n x ND H.
  transitivity (sumn n (fun j => lsum l (fun c v => if Nat.eqb c j then v * x j else 0))).
  - clear ND. unfold lsum. induction l as [|[c v] l IH]; cbn [fold_right].
    + rewrite sumn_zero; auto.
    + rewrite sumn_plus, <- IH by (intros; eapply H; cbn; eauto). cbn [fst snd]. f_equal.
      rewrite (sumn_single n c).
      * rewrite Nat.eqb_refl; auto.
      * eapply H; cbn; eauto.
      * intros i Hi E. destruct (Nat.eqb_spec c i); [congruence|auto].
  - apply sumn_ext. intros j Hj. apply lsum_scatter; auto.
Qed.

Lemma row_lookup_notin : forall (l : list (nat * R)) k, (forall v, ~ In (k, v) l) -> row_lookup l k 0 = 0.
Proof.
  intros l k H; unfold row_lookup. destruct (find _ l) as [[c v]|] eqn:F; auto.
  apply find_some in F. destruct F as [I E]. cbn in E. apply Nat.eqb_eq in E. subst. exfalso; eapply H; eauto.
Qed.

Lemma up_lower : forall C i j, wf_csr C -> (i < m C)%nat -> (j <= i)%nat -> up C i j = 0.
Proof. intros C i j W Hi L. apply row_lookup_notin. intros v I. apply (wf_upper C W) in I; lia. Qed.

(** *** The generic row loop *)
Definition gen_body (g s : bool) (x : list R) (i c : nat) (v : R) (r : list R) : res (list R) :=
  r <- (if g then xc <- get x c ;; modify ROps r i (fun t => t + v * xc) else Ok r) ;;
  (if s then xi <- get x i ;; modify ROps r c (fun t => t + v * xi) else Ok r).

Lemma modify_ok : forall (r : list R) i f, (i < length r)%nat -> modify ROps r i f = Ok (upd r i (f (vget r i))).
Proof. intros; unfold modify. change (T ROps) with R. rewrite (get_lt _ r i 0) by auto. cbn [bind]. rewrite set_lt by auto. auto. Qed.

Lemma gen_row : forall g s x i l r,
  (i < length r)%nat -> (i < length x)%nat ->
  (forall c v, In (c, v) l -> (c < length r)%nat /\ (c < length x)%nat /\ (i <> c)%nat) ->
  exists r', forM_list l (fun cv r => gen_body g s x i (fst cv) (snd cv) r) r = Ok r' /\
    length r' = length r /\
    forall k, vget r' k = vget r k
       + (if Nat.eqb k i then (if g then lsum l (fun c v => v * vget x c) else 0) else 0)
       + (if s then lsum l (fun c v => if Nat.eqb c k then v * vget x i else 0) else 0).
Proof.
  induction l as [|[c v] l IH]; intros r Hi Hx H; cbn [forM_list].
  - exists r; split; auto. split; auto. intros k; unfold lsum; cbn. destruct (Nat.eqb k i), g, s; ring.
  - destruct (H c v) as [H1 [H2 H3]]; [cbn; auto|]. cbn [fst snd].
    assert (ST : exists r1, gen_body g s x i c v r = Ok r1 /\ length r1 = length r /\
       forall k, vget r1 k = vget r k + (if Nat.eqb k i then (if g then v * vget x c else 0) else 0)
                             + (if s then (if Nat.eqb c k then v * vget x i else 0) else 0)).
    { unfold gen_body. rewrite (get_lt _ x c 0), (get_lt _ x i 0) by auto. cbn [bind].
      destruct g; cbn [bind].
      - rewrite modify_ok by auto. cbn [bind]. destruct s.
        + rewrite modify_ok by (rewrite upd_length; auto). eexists; split; [reflexivity|]. rewrite !upd_length. split; auto.
          intros k. unfold vget. rewrite nth_upd by (rewrite upd_length; auto). rewrite (nth_upd _ _ i k) by auto.
          rewrite (Nat.eqb_sym c k).
          destruct (Nat.eqb_spec k c) as [E|E].
          * subst k. rewrite nth_upd_other by auto. destruct (Nat.eqb_spec c i); [congruence|]. ring.
          * destruct (Nat.eqb_spec k i) as [E2|E2]; [subst; ring|ring].
        + eexists; split; [reflexivity|]. rewrite upd_length. split; auto. intros k. unfold vget. rewrite nth_upd by auto.
          destruct (Nat.eqb_spec k i) as [E2|E2]; [subst; ring|ring].
      - destruct s.
        + rewrite modify_ok by auto. eexists; split; [reflexivity|]. rewrite upd_length. split; auto. intros k. unfold vget. rewrite nth_upd by auto.
          rewrite (Nat.eqb_sym c k). destruct (Nat.eqb_spec k c) as [E|E]; [subst; destruct (Nat.eqb c i); ring|destruct (Nat.eqb k i); ring].
        + eexists; split; [reflexivity|]. split; auto. intros k; destruct (Nat.eqb k i); ring. }
    destruct ST as [r1 [E1 [L1 V1]]]. rewrite E1. cbn [bind].
    destruct (IH r1) as [r' [E' [L' V']]]; [lia|auto| |].
    { intros c' v' I. rewrite L1. apply (H c' v'); cbn; auto. }
    exists r'; split; auto. split; [congruence|]. intros k. rewrite V', V1. unfold lsum; cbn [fold_right fst snd].
    destruct (Nat.eqb k i), g, s; ring.
Qed.

Definition gen_mult_row (g s : bool) (C : rcsr) (x : list R) (i : nat) (r : list R) : res (list R) :=
  d <- get (diag C) i ;;
  xi <- get x i ;;
  r <- set r i (d * xi) ;;
  a <- get (row_ptr C) i ;; b <- get (row_ptr C) (i + 1) ;;
  forM_range a b (fun j r => v <- get (val C) j ;; c <- get (col_ind C) j ;; gen_body g s x i c v r) r.

Definition gen_mult (g s : bool) (r : list R) (C : rcsr) (x : list R) : res (list R) :=
  forM_down (m C) (gen_mult_row g s C x) r.

Lemma gen_mult_ok : forall g s C r x, wf_csr C -> (m C <= length r)%nat -> (m C <= length x)%nat ->
  exists y, gen_mult g s r C x = Ok y /\ length y = length r /\
    (forall k, (k < m C)%nat ->
       vget y k = vget (diag C) k * vget x k
         + (if g then sumn (m C) (fun j => if Nat.ltb k j then up C k j * vget x j else 0) else 0)
         + (if s then sumn (m C) (fun i => if Nat.ltb i k then up C i k * vget x i else 0) else 0)) /\
    (forall k, (m C <= k)%nat -> vget y k = vget r k).
Proof.
  intros g s C r x W Hr Hx. unfold gen_mult.
  destruct (forM_down_inv _ (fun i y => length y = length r /\
     (forall k, (i <= k < m C)%nat -> vget y k = vget (diag C) k * vget x k
         + (if g then sumn (m C) (fun j => if Nat.ltb k j then up C k j * vget x j else 0) else 0)
         + (if s then sumn (m C) (fun i' => if Nat.ltb i' k then (if Nat.leb i i' then up C i' k * vget x i' else 0) else 0) else 0)) /\
     (forall k, (k < i)%nat \/ (m C <= k)%nat -> vget y k = vget r k)) (gen_mult_row g s C x) (m C) r) as [y [E [L [A B]]]].
  - split; auto. split; [intros; lia|auto].
  - intros i y Hi [L [A B]]. unfold gen_mult_row.
    rewrite (get_lt _ (diag C) i 0) by (rewrite (wf_diag C W); auto). cbn [bind].
    rewrite (get_lt _ x i 0) by lia. cbn [bind]. rewrite set_lt by lia. cbn [bind].
    pose proof (row_loop (list R) C (gen_body g s x i) i (upd y i (nth i (diag C) 0 * nth i x 0)) W Hi) as RL.
    rewrite RL.
    destruct (gen_row g s x i (row_entries C i) (upd y i (nth i (diag C) 0 * nth i x 0))) as [y' [E' [L' V']]].
    + rewrite upd_length; lia.
    + lia.
    + intros c v I. pose proof (wf_upper C W i c v Hi I). rewrite upd_length. lia.
    + exists y'; split; auto. rewrite upd_length in L'. split; [lia|].
      assert (ND := wf_nodup C W i Hi).
      assert (SC : forall k, lsum (row_entries C i) (fun c v => if Nat.eqb c k then v * vget x i else 0) = up C i k * vget x i)
        by (intros; apply lsum_scatter; auto).
      split.
      * intros k Hk. rewrite V', SC. unfold vget at 1. rewrite nth_upd by lia.
        destruct (Nat.eqb_spec k i) as [Ek|Ek].
        -- subst k. rewrite (up_lower C i i) by auto.
           assert (G : lsum (row_entries C i) (fun c v => v * vget x c) = sumn (m C) (fun j => if Nat.ltb i j then up C i j * vget x j else 0)).
           { rewrite (lsum_gather _ (m C)); auto.
             - apply sumn_ext. intros j Hj. destruct (Nat.ltb_spec i j); auto. fold (up C i j). rewrite up_lower by auto. ring.
             - intros c v I. apply (wf_upper C W) in I; lia. }
           assert (Z : sumn (m C) (fun i' => if Nat.ltb i' i then if Nat.leb i i' then up C i' i * vget x i' else 0 else 0) = 0).
           { apply sumn_0. intros j Hj. destruct (Nat.ltb_spec j i), (Nat.leb_spec i j); auto; lia. }
           rewrite Z, G. unfold vget. destruct g, s; ring.
        -- fold (vget y k). rewrite A by lia. destruct s; [|destruct g; ring].
           assert (Z : sumn (m C) (fun i' => if Nat.ltb i' k then if Nat.leb i i' then up C i' k * vget x i' else 0 else 0)
                = up C i k * vget x i + sumn (m C) (fun i' => if Nat.ltb i' k then if Nat.leb (S i) i' then up C i' k * vget x i' else 0 else 0)).
           { rewrite <- (sumn_delta (m C) i (fun i' => up C i' k * vget x i')) by auto. rewrite <- sumn_plus. apply sumn_ext. intros j Hj.
             destruct (Nat.ltb_spec j k), (Nat.leb_spec i j), (Nat.leb_spec (S i) j), (Nat.eqb_spec j i); try lia; ring. }
           rewrite Z. destruct g; ring.
      * intros k Hk. rewrite V', SC.
        assert (Ek : k <> i) by lia. unfold vget at 1. rewrite nth_upd_other by auto. apply Nat.eqb_neq in Ek; rewrite Ek.
        assert (U0 : up C i k = 0).
        { destruct Hk as [Hk|Hk]; [apply up_lower; auto; lia|]. apply row_lookup_notin. intros v I. apply (wf_upper C W) in I; lia. }
        rewrite U0. fold (vget y k). rewrite B by lia. destruct s; ring.
  - exists y; split; auto. split; auto. split; [|intros; apply B; auto].
    intros k Hk. rewrite A by lia. f_equal; try lia.
Qed.

Lemma forM_from_ext : forall S n b1 b2 p (s : S), (forall j s, b1 j s = b2 j s) -> forM_from n p b1 s = forM_from n p b2 s.
Proof. induction n as [|n IH]; intros b1 b2 p s H; cbn; auto. rewrite H. destruct (b2 p s); cbn; auto. Qed.
Lemma forM_down_ext : forall S n b1 b2 (s : S), (forall j s, b1 j s = b2 j s) -> forM_down n b1 s = forM_down n b2 s.
Proof. induction n as [|n IH]; intros b1 b2 s H; cbn; auto. rewrite H. destruct (b2 n s); cbn; auto. Qed.
Lemma bind_ext : forall A B (x : res A) (f g : A -> res B), (forall a, f a = g a) -> bind x f = bind x g.
Proof. intros A B x f g H; destruct x; cbn; auto. Qed.
Lemma bind_assoc : forall A B C (x : res A) (f : A -> res B) (g : B -> res C), bind (bind x f) g = bind x (fun a => bind (f a) g).
Proof. intros; destruct x; auto. Qed.
Lemma bind_ret : forall A (x : res A), bind x Ok = x.
Proof. intros; destruct x; auto. Qed.

Lemma mult_sym_gen : forall r (C : rcsr) x, mult_sym ROps r C x = gen_mult true true r C x.
Proof.
  intros. unfold mult_sym, gen_mult. apply forM_down_ext. intros i y. unfold mult_sym_row, gen_mult_row.
  repeat (apply bind_ext; intros ?). apply forM_from_ext. intros j z.
  repeat (apply bind_ext; intros ?). unfold gen_body. rewrite bind_assoc. reflexivity.
Qed.
Lemma mult_upper_gen : forall r (C : rcsr) x, mult_upper ROps r C x = gen_mult true false r C x.
Proof.
  intros. unfold mult_upper, gen_mult. apply forM_down_ext. intros i y. unfold mult_upper_row, gen_mult_row.
  repeat (apply bind_ext; intros ?). apply forM_from_ext. intros j z.
  do 2 (apply bind_ext; intros ?). unfold gen_body. rewrite bind_ret. reflexivity.
Qed.
Lemma mult_lower_gen : forall r (C : rcsr) x, mult_lower ROps r C x = gen_mult false true r C x.
Proof. reflexivity. Qed.

(** C04 *)
Lemma mult_sym_ok : forall (C : rcsr) (r x : list R), wf_csr C -> length r = m C -> length x = m C ->
  exists y : list R, mult_sym ROps r C x = Ok y /\ length y = m C /\
    forall i, (i < m C)%nat -> vget y i = sumn (m C) (fun j => ent C i j * vget x j).
Proof.
  intros C r x W Lr Lx. rewrite mult_sym_gen.
  destruct (gen_mult_ok true true C r x W) as [y [E [L [V _]]]]; [lia|lia|].
  exists y; split; auto. split; [lia|]. intros i Hi. rewrite V by auto.
  rewrite (sumn_split3 (m C) i (fun j => ent C i j * vget x j)) by auto.
  f_equal; [f_equal|].
  - unfold ent. rewrite Nat.eqb_refl; auto.
  - apply sumn_ext; intros j Hj. unfold ent. destruct (Nat.ltb_spec i j), (Nat.eqb_spec i j); auto; lia.
  - apply sumn_ext; intros j Hj. unfold ent. destruct (Nat.ltb_spec j i), (Nat.eqb_spec i j), (Nat.ltb_spec i j); auto; lia.
Qed.

Lemma mult_upper_ok : forall (C : rcsr) (r x : list R), wf_csr C -> length r = m C -> length x = m C ->
  exists y : list R, mult_upper ROps r C x = Ok y /\ length y = m C /\
    forall i, (i < m C)%nat -> vget y i = sumn (m C) (fun j => if Nat.leb i j then ent C i j * vget x j else 0).
Proof.
  intros C r x W Lr Lx. rewrite mult_upper_gen.
  destruct (gen_mult_ok true false C r x W) as [y [E [L [V _]]]]; [lia|lia|].
  exists y; split; auto. split; [lia|]. intros i Hi. rewrite V by auto.
  rewrite (sumn_split3 (m C) i (fun j => if Nat.leb i j then ent C i j * vget x j else 0)) by auto.
  rewrite Nat.leb_refl. f_equal; [f_equal|].
  - unfold ent. rewrite Nat.eqb_refl; auto.
  - apply sumn_ext; intros j Hj. unfold ent. destruct (Nat.ltb_spec i j), (Nat.leb_spec i j), (Nat.eqb_spec i j); auto; lia.
  - rewrite sumn_0; auto. intros j Hj. destruct (Nat.ltb_spec j i), (Nat.leb_spec i j); auto; lia.
Qed.

Lemma mult_lower_ok : forall (C : rcsr) (r x : list R), wf_csr C -> length r = m C -> length x = m C ->
  exists y : list R, mult_lower ROps r C x = Ok y /\ length y = m C /\
    forall i, (i < m C)%nat -> vget y i = sumn (m C) (fun j => if Nat.leb j i then ent C i j * vget x j else 0).
Proof.
  intros C r x W Lr Lx. rewrite mult_lower_gen.
  destruct (gen_mult_ok false true C r x W) as [y [E [L [V _]]]]; [lia|lia|].
  exists y; split; auto. split; [lia|]. intros i Hi. rewrite V by auto.
  rewrite (sumn_split3 (m C) i (fun j => if Nat.leb j i then ent C i j * vget x j else 0)) by auto.
  rewrite Nat.leb_refl. f_equal; [f_equal|].
  - unfold ent. rewrite Nat.eqb_refl; auto.
  - rewrite sumn_0; auto. intros j Hj. destruct (Nat.ltb_spec i j), (Nat.leb_spec j i); auto; lia.
  - apply sumn_ext; intros j Hj. unfold ent. destruct (Nat.ltb_spec j i), (Nat.leb_spec j i), (Nat.eqb_spec i j), (Nat.ltb_spec i j); auto; lia.
Qed.
