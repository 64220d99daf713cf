(** The SSOR preconditioner over exact arithmetic (solvers.cpp 5-32). *)
From Coq Require Import String.
From Coq Require Import List Arith ZArith NArith Bool Lia Reals Lra.
From Verif Require Import Base AlgebraModel AlgebraSpec Csr_proofs SumR Mult_proofs Vec_proofs SolversModel Safe_proofs.
Import ListNotations.
Local Open Scope R_scope.

(** scatter of row i: r[c] -= v * r[i] * w *)
Lemma scatter_row : forall (w : R) i l (r : list R), (i < length r)%nat ->
  (forall c v, In (c, v) l -> (c < length r)%nat /\ (i <> c)%nat) ->
  exists r' : list R, forM_list l (fun cv r => ri <- get r i ;; modify ROps r (fst cv) (fun t => t - (snd cv * ri) * w)) r = Ok r' /\
    length r' = length r /\ forall k, vget r' k = vget r k - w * vget r i * lsum l (fun c v => if Nat.eqb c k then v * 1 else 0).
Proof.
  intros w i; induction l as [|[c v] l IH]; intros r Hi H; cbn [forM_list].
  - exists r; split; auto. split; auto. intros k; unfold lsum; cbn. ring.
  - destruct (H c v) as [H1 H2]; [cbn; auto|]. cbn [fst snd].
    toR. rewrite (get_lt _ r i 0) by auto. cbn [bind]. rewrite modify_ok by auto. cbn [bind].
    destruct (IH (upd r c (vget r c - v * nth i r 0 * w))) as [r' [E [L V]]].
    { rewrite upd_length; auto. }
    { intros c' v' I. rewrite upd_length. apply (H c' v'); cbn; auto. }
    exists r'; split; auto. rewrite upd_length in L. split; auto. intros k. rewrite V.
    assert (Vi : vget (upd r c (vget r c - v * nth i r 0 * w)) i = vget r i) by (unfold vget; rewrite nth_upd_other; auto).
    rewrite Vi. unfold vget at 1. rewrite nth_upd by auto. unfold lsum; cbn [fold_right fst snd].
    rewrite (Nat.eqb_sym c k). fold (vget r i). fold (vget r k).
    destruct (Nat.eqb_spec k c); [subst; ring|ring].
Qed.

(** gather of row i: r[i] -= v * r[c] * w *)
Lemma gather_row : forall (w : R) i l (r : list R), (i < length r)%nat ->
  (forall c v, In (c, v) l -> (c < length r)%nat /\ (i <> c)%nat) ->
  exists r' : list R, forM_list l (fun cv r => rc <- get r (fst cv) ;; modify ROps r i (fun t => t - (snd cv * rc) * w)) r = Ok r' /\
    length r' = length r /\
    (forall k, k <> i -> vget r' k = vget r k) /\ vget r' i = vget r i - w * lsum l (fun c v => v * vget r c).
Proof.
  intros w i; induction l as [|[c v] l IH]; intros r Hi H; cbn [forM_list].
  - exists r; split; auto. split; auto. split; auto. unfold lsum; cbn. ring.
  - destruct (H c v) as [H1 H2]; [cbn; auto|]. cbn [fst snd].
    toR. rewrite (get_lt _ r c 0) by auto. cbn [bind]. rewrite modify_ok by auto. cbn [bind].
    destruct (IH (upd r i (vget r i - v * nth c r 0 * w))) as [r' [E [L [V Vi]]]].
    { rewrite upd_length; auto. }
    { intros c' v' I. rewrite upd_length. apply (H c' v'); cbn; auto. }
    exists r'; split; auto. rewrite upd_length in L. split; auto. split.
    + intros k Hk. rewrite V by auto. unfold vget. rewrite nth_upd_other; auto.
    + rewrite Vi. unfold vget at 1. rewrite nth_upd_same by auto.
      rewrite (lsum_ext l _ (fun c v => v * vget r c)).
      * unfold lsum; cbn [fold_right fst snd]. unfold vget. ring.
      * intros c' v' I. unfold vget. rewrite nth_upd_other; auto. intros E2. apply (H c' v'); cbn; auto.
Qed.

Definition lower_sum (n : nat) (a : nat -> nat -> R) (x : nat -> R) (i : nat) : R := sumn n (fun j => if Nat.ltb j i then a i j * x j else 0).
Definition upper_sum (n : nat) (a : nat -> nat -> R) (x : nat -> R) (i : nat) : R := sumn n (fun j => if Nat.ltb i j then a i j * x j else 0).

Lemma ent_diag : forall C i, ent C i i = vget (diag C) i.
Proof. intros; unfold ent; rewrite Nat.eqb_refl; auto. Qed.
Lemma ent_up : forall C i j, (i < j)%nat -> ent C i j = up C i j.
Proof. intros C i j H; unfold ent. destruct (Nat.eqb_spec i j), (Nat.ltb_spec i j); auto; lia. Qed.
Lemma ent_up2 : forall C i j, (i < j)%nat -> ent C j i = up C i j.
Proof. intros. rewrite ent_sym. apply ent_up; auto. Qed.

Lemma up_gather : forall C i (x : nat -> R), wf_csr C -> (i < m C)%nat ->
  lsum (row_entries C i) (fun c v => v * x c) = upper_sum (m C) (ent C) x i.
Proof.
  intros C i x W Hi. rewrite (lsum_gather _ (m C)).
  - unfold upper_sum. apply sumn_ext. intros j Hj. destruct (Nat.ltb_spec i j).
    + rewrite ent_up by auto. auto.
    + fold (up C i j). rewrite up_lower by auto. ring.
  - apply (wf_nodup C W i Hi).
  - intros c v I. apply (wf_upper C W) in I; auto; lia.
Qed.

Lemma ssor_ok : forall (C : rcsr) (r cv : list R) (w : R), wf_csr C -> is_u32 (m C) -> (1 <= m C)%nat ->
  length r = m C -> length cv = m C -> (forall i, (i < m C)%nat -> vget (diag C) i <> 0) ->
  exists y z : list R, ssor ROps C r cv w = Ok z /\ length z = m C /\ length y = m C /\
    (forall i, (i < m C)%nat -> vget (diag C) i * vget y i + w * lower_sum (m C) (ent C) (vget y) i = w * (2 - w) * vget cv i) /\
    (forall i, (i < m C)%nat -> vget (diag C) i * vget z i + w * upper_sum (m C) (ent C) (vget z) i = vget (diag C) i * vget y i).
Proof.
  intros C r cv w W U N1 Lr Lc D. pose proof (wf_diag C W) as LD. pose proof (wf_rp C W) as LRP.
  set (n := m C) in *. unfold ssor. cbv zeta. toR. fold n. cbn [mul sub ofZ ROps].
  (* scaling *)
  destruct (forM_up_inv (list R) (fun i s => length s = n /\ forall k, (k < i)%nat -> vget s k = w * (2 - w) * vget cv k)
     (fun i r => c <- get cv i ;; set r i (c * (w * (IZR 2 - w)))) n r) as [r1 [E1 [L1 V1]]].
  { split; auto. intros; lia. }
  { intros i s Hi [Ls Vs]. rewrite (get_lt _ cv i 0) by lia. cbn [bind]. rewrite set_lt by lia. eexists; split; [reflexivity|].
    rewrite upd_length. split; auto. intros k Hk. unfold vget. rewrite nth_upd by lia. destruct (Nat.eqb_spec k i); [subst; ring|]. apply Vs; lia. }
  rewrite E1. cbn [bind].
  (* forward *)
  match goal with |- context [forM_up n ?b r1] => set (bf := b) end.
  destruct (forM_up_inv (list R) (fun i s => length s = n /\
       (forall k, (k < i)%nat -> vget (diag C) k * vget s k + w * lower_sum n (ent C) (vget s) k = w * (2 - w) * vget cv k) /\
       (forall k, (i <= k < n)%nat -> vget s k + w * sumn n (fun j => if Nat.ltb j i then ent C k j * vget s j else 0) = w * (2 - w) * vget cv k))
     bf n r1) as [y [E2 [L2 [V2 _]]]].
  { split; auto. split; [intros; lia|]. intros k Hk. rewrite V1 by lia. rewrite sumn_0; [ring|]. intros j Hj. reflexivity. }
  { intros i s Hi [Ls [Va Vb]]. unfold bf. toR. rewrite (get_lt _ (diag C) i 0) by lia. cbn [bind].
    rewrite (get_lt _ s i 0) by lia. cbn [bind]. cbn [div ROps]. rewrite Rdivr_ok by (apply D; auto). cbn [bind].
    rewrite set_lt by lia. cbn [bind]. set (q := nth i s 0 / nth i (diag C) 0).
    pose proof (row_loop (list R) C (fun c v r => ri <- get r i ;; modify ROps r c (fun t => t - (v * ri) * w)) i (upd s i q) W Hi) as RL.
    toR. rewrite RL. clear RL.
    destruct (scatter_row w i (row_entries C i) (upd s i q)) as [s' [E' [L' V']]].
    { rewrite upd_length; lia. }
    { intros c v I. apply (wf_upper C W) in I; auto. rewrite upd_length. change (m C) with n in I. split; lia. }
    exists s'. split; [exact E'|]. rewrite upd_length in L'. split; [lia|].
    assert (ND := wf_nodup C W i Hi).
    assert (Qi : vget (upd s i q) i = q) by (unfold vget; apply nth_upd_same; lia).
    assert (VV : forall k, vget s' k = vget (upd s i q) k - w * q * up C i k).
    { intros k. rewrite V', Qi. f_equal. rewrite lsum_scatter by auto. fold (up C i k). ring. }
    assert (Vlt : forall k, (k < i)%nat -> vget s' k = vget s k).
    { intros k Hk. rewrite VV, (up_lower C i k) by (auto; lia). unfold vget. rewrite nth_upd_other by lia. ring. }
    assert (Vi : vget s' i = q) by (rewrite VV, (up_lower C i i) by (auto; lia); rewrite Qi; ring).
    assert (Vgt : forall k, (i < k)%nat -> vget s' k = vget s k - w * q * up C i k).
    { intros k Hk. rewrite VV. unfold vget. rewrite nth_upd_other by lia. ring. }
    split.
    - intros k Hk. destruct (Nat.eq_dec k i) as [->|NE].
      + rewrite Vi. rewrite <- (Vb i) by lia. f_equal.
        * unfold q. unfold vget. field. apply D; auto.
        * f_equal. unfold lower_sum. apply sumn_ext. intros j Hj. destruct (Nat.ltb_spec j i); auto. rewrite Vlt by auto. auto.
      + rewrite <- (Va k) by lia. rewrite Vlt by lia. f_equal. f_equal. unfold lower_sum. apply sumn_ext. intros j Hj.
        destruct (Nat.ltb_spec j k); auto. rewrite Vlt by lia. auto.
    - intros k Hk. rewrite Vgt by lia. rewrite <- (Vb k) by lia.
      assert (Z : sumn n (fun j => if Nat.ltb j (S i) then ent C k j * vget s' j else 0)
          = sumn n (fun j => if Nat.ltb j i then ent C k j * vget s j else 0) + up C i k * q).
      { rewrite <- (ent_up2 C i k) by lia. rewrite <- (sumn_delta n i (fun _ => ent C k i * q)) by auto. rewrite <- sumn_plus. apply sumn_ext.
        intros j Hj. destruct (Nat.ltb_spec j (S i)), (Nat.ltb_spec j i), (Nat.eqb_spec j i); try lia; subst; try (rewrite Vlt by lia); rewrite ?Vi; ring. }
      rewrite Z. ring. }
  rewrite E2. cbn [bind].
  (* multiplication by D *)
  destruct (forM_up_inv (list R) (fun i s => length s = n /\ (forall k, (k < i)%nat -> vget s k = vget (diag C) k * vget y k) /\
       forall k, (i <= k)%nat -> vget s k = vget y k)
     (fun i r => d <- get (diag C) i ;; modify ROps r i (fun t => t * d)) n y) as [r3 [E3 [L3 [V3 _]]]].
  { split; auto. split; auto. intros; lia. }
  { intros i s Hi [Ls [Va Vb]]. rewrite (get_lt _ (diag C) i 0) by lia. cbn [bind]. rewrite modify_ok by lia. eexists; split; [reflexivity|].
    rewrite upd_length. split; auto. split; intros k Hk; unfold vget at 1; rewrite nth_upd by lia; destruct (Nat.eqb_spec k i); try lia.
    - subst. rewrite Vb by lia. unfold vget; ring.
    - apply Va; lia.
    - apply Vb; lia. }
  toR. rewrite E3. cbn [bind].
  (* backward *)
  rewrite ssor_start by auto.
  match goal with |- context [forM_down n ?b r3] => set (bb := b) end.
  destruct (forM_down_inv (list R) (fun i s => length s = n /\
       (forall k, (i <= k < n)%nat -> vget (diag C) k * vget s k + w * upper_sum n (ent C) (vget s) k = vget (diag C) k * vget y k) /\
       (forall k, (k < i)%nat -> vget s k = vget (diag C) k * vget y k))
     bb n r3) as [z [E4 [L4 [V4 _]]]].
  { split; auto. split; [intros; lia|]. intros; apply V3; auto. }
  { intros i s Hi [Ls [Va Vb]]. unfold bb. toR.
    pose proof (row_loop (list R) C (fun c v r => rc <- get r c ;; modify ROps r i (fun t => t - (v * rc) * w)) i s W Hi) as RL.
    rewrite (get_lt _ (row_ptr C) i O) in * by lia. rewrite (get_lt _ (row_ptr C) (i + 1) O) in * by lia. cbn [bind] in *.
    toR. rewrite RL. clear RL.
    destruct (gather_row w i (row_entries C i) s) as [s' [E' [L' [V' Vi]]]].
    { lia. }
    { intros c v I. apply (wf_upper C W) in I; auto. change (m C) with n in I. split; lia. }
    cbn [sub mul ROps] in *. toR. rewrite E'. cbn [bind]. rewrite (get_lt _ (diag C) i 0) by lia. cbn [bind].
    rewrite (get_lt _ s' i 0) by lia. cbn [bind]. cbn [div ROps]. rewrite Rdivr_ok by (apply D; auto). cbn [bind].
    rewrite set_lt by lia. eexists; split; [reflexivity|]. rewrite upd_length. split; [lia|].
    set (q := nth i s' 0 / nth i (diag C) 0).
    assert (Qo : forall k, k <> i -> vget (upd s' i q) k = vget s k) by (intros k Hk; unfold vget; rewrite nth_upd_other by auto; apply V'; auto).
    assert (Qi : vget (upd s' i q) i = q) by (unfold vget; apply nth_upd_same; lia).
    split.
    - intros k Hk. 
      assert (US : upper_sum n (ent C) (vget (upd s' i q)) k = upper_sum n (ent C) (vget s) k).
      { unfold upper_sum. apply sumn_ext. intros j Hj. destruct (Nat.ltb_spec k j); auto. rewrite Qo by lia. auto. }
      rewrite US. destruct (Nat.eq_dec k i) as [->|NE].
      + rewrite Qi. rewrite up_gather in Vi by auto. fold n in Vi.
        unfold q. fold (vget s' i). rewrite Vi, Vb by lia. unfold vget. field. apply D; auto.
      + rewrite Qo by auto. apply Va; lia.
    - intros k Hk. rewrite Qo by lia. apply Vb; lia. }
  exists y, z. split; [exact E4|]. split; auto. split; auto. split; auto. intros i Hi. apply V4; lia.
Qed.
