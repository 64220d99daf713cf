(** What the factorisation of solvers.cpp 34-82 computes on a pattern that elimination does not leave, over exact arithmetic. *)
From Coq Require Import String.
From Coq Require Import List Arith ZArith NArith Bool Lia Reals Lra.
From Verif Require Import Base AlgebraModel AlgebraSpec Coo_proofs Csr_proofs SumR Mult_proofs SolversModel Safe_proofs Solver_proofs Ssor_proofs Precond_proofs SolversSpec CholSpec Chol_dense.
Import ListNotations.
Local Open Scope R_scope.
Ltac toR := change (T ROps) with R in *.

(** ** Positions of the value array *)
Definition rb {V} (C : csr V) (i : nat) : nat := nth i (row_ptr C) 0%nat.
Definition at_pos {V} (C : csr V) (i k c : nat) : Prop := (rb C i <= k < rb C (i + 1))%nat /\ nth k (col_ind C) 0%nat = c.
Definition has {V} (C : csr V) (i c : nat) : Prop := exists k, at_pos C i k c.

Lemma row_lookup_in : forall (l : list (nat * R)) c v, NoDup (map fst l) -> In (c, v) l -> row_lookup l c 0 = v.
Proof.
  unfold row_lookup; induction l as [|[c0 v0] l IH]; intros c v ND I; [destruct I|]. cbn in *. inversion ND; subst.
  destruct I as [I|I].
  - inversion I; subst. rewrite Nat.eqb_refl. auto.
  - destruct (Nat.eqb_spec c0 c); [|auto]. subst. exfalso. apply H1. apply (in_map fst) in I. auto.
Qed.
Lemma pos_entry : forall C i k c, wf_csr C -> (i < m C)%nat -> at_pos C i k c -> In (c, vget (val C) k) (row_entries C i).
Proof.
  intros C i k c W Hi [Hk Hc]. unfold rb in Hk. destruct (wf_col C i k W Hi Hk) as [K1 [K2 _]].
  unfold row_entries. eapply nth_error_In with (n := (k - nth i (row_ptr C) 0)%nat).
  destruct (nth_error (col_ind C) k) as [c'|] eqn:Ec; [|apply nth_error_None in Ec; lia].
  destruct (nth_error (val C) k) as [v|] eqn:Ev; [|apply nth_error_None in Ev; lia].
  rewrite (nth_error_nth _ _ 0%nat Ec) in Hc. unfold vget. rewrite (nth_error_nth _ _ 0 Ev). subst c'.
  apply nth_error_combine; rewrite slice_nth_error by lia; auto.
Qed.
Lemma entry_pos : forall (C : rcsr) i c v, wf_csr C -> (i < m C)%nat -> In (c, v) (row_entries C i) -> has C i c.
Proof.
  intros C i c v W Hi I. pose proof (wf_mono C W i Hi) as Mo. pose proof (wf_bound C W (i + 1) ltac:(lia)) as B.
  apply (in_map fst) in I. cbn [fst] in I. rewrite row_cols in I by auto.
  apply In_nth_error in I. destruct I as [t E].
  assert (Lt : (t < nth (i + 1) (row_ptr C) 0 - nth i (row_ptr C) 0)%nat).
  { rewrite <- (slice_length _ (col_ind C) (nth i (row_ptr C) 0%nat)) by lia. apply nth_error_Some. congruence. }
  exists (nth i (row_ptr C) 0 + t)%nat. split; [unfold rb; lia|].
  replace t with ((nth i (row_ptr C) 0 + t) - nth i (row_ptr C) 0)%nat in E by lia. rewrite slice_nth_error in E by lia.
  apply (nth_error_nth _ _ 0%nat) in E. auto.
Qed.
Lemma up_at : forall C i k c, wf_csr C -> (i < m C)%nat -> at_pos C i k c -> up C i c = vget (val C) k.
Proof. intros C i k c W Hi H. unfold up. apply row_lookup_in; [apply (wf_nodup C W i Hi)|apply pos_entry; auto]. Qed.
Lemma up_none : forall C i c, wf_csr C -> (i < m C)%nat -> ~ has C i c -> up C i c = 0.
Proof. intros C i c W Hi N. apply row_lookup_notin. intros v I. apply N. eapply entry_pos; eauto. Qed.
Lemma has_dec : forall V (C : csr V) i c, has C i c \/ ~ has C i c.
Proof.
  intros V C i c. unfold has, at_pos.
  destruct (all_dec (rb C (i + 1)) (fun k => ~ ((rb C i <= k < rb C (i + 1))%nat /\ nth k (col_ind C) 0%nat = c))) as [H|[k [Hk H]]].
  - intros k. destruct (le_lt_dec (rb C i) k), (le_lt_dec (rb C (i + 1)) k), (Nat.eq_dec (nth k (col_ind C) 0%nat) c);
      [left; intros [? ?]; lia|left; intros [? ?]; lia|right; intros N; apply N; split; auto; lia|left; intros [? ?]; congruence
      |left; intros [? ?]; lia|left; intros [? ?]; lia|left; intros [? ?]; lia|left; intros [? ?]; lia].
  - right. intros [k [B E]]. apply (H k); [lia|split; auto].
  - left. destruct (le_lt_dec (rb C i) k), (Nat.eq_dec (nth k (col_ind C) 0%nat) c); try (exists k; split; [lia|auto]; fail); exfalso; apply H; intros [? ?]; try lia; congruence.
Qed.
Lemma rb_mono : forall V (C : csr V) i j, wf_csr C -> (i <= j)%nat -> (j <= m C)%nat -> (rb C i <= rb C j)%nat.
Proof.
  intros V C i j W. induction j as [|j IH]; intros H1 H2; [replace i with 0%nat by lia; auto|].
  destruct (Nat.eq_dec i (S j)) as [->|N]; auto. pose proof (wf_mono C W j ltac:(lia)) as Q. unfold rb in *.
  replace (j + 1)%nat with (S j) in Q by lia. lia.
Qed.
Lemma sp_has : forall (C D : rcsr) i c, same_pattern C D -> has D i c -> has C i c.
Proof. intros C D i c [E1 [E2 _]] [k H]. exists k. unfold at_pos, rb in *. rewrite E1, E2 in H. auto. Qed.
Lemma sp_sym : forall C D : rcsr, same_pattern C D -> same_pattern D C.
Proof. unfold same_pattern; intuition. Qed.
Lemma sp_trans : forall C D E : rcsr, same_pattern C D -> same_pattern D E -> same_pattern C E.
Proof. unfold same_pattern; intuition congruence. Qed.
Lemma sp_pos : forall (C D : rcsr) i k c, same_pattern C D -> at_pos C i k c -> at_pos D i k c.
Proof. intros C D i k c [E1 [E2 _]] H. unfold at_pos, rb in *. rewrite E1, E2. auto. Qed.
(** only the values of the row matter *)
Lemma up_agree : forall C D i c, wf_csr C -> same_pattern C D -> (i < m C)%nat ->
  (forall k, (rb C i <= k < rb C (i + 1))%nat -> vget (val D) k = vget (val C) k) -> up D i c = up C i c.
Proof.
  intros C D i c W SP Hi H. pose proof (same_pattern_wf C D W SP) as WD. assert (MD : m D = m C) by apply SP.
  destruct (has_dec R C i c) as [[k K]|N].
  - rewrite (up_at C i k c), (up_at D i k c) by (auto; try (rewrite MD; auto); eapply sp_pos; eauto). apply H. apply K.
  - rewrite (up_none C), (up_none D) by (auto; try (rewrite MD; auto); intros Q; apply N; eapply sp_has; eauto). auto.
Qed.

(** ** Loops writing the values of one row *)
Definition puts (R0 : rcsr) (k : nat) (x : R) (R1 : rcsr) : Prop :=
  same_pattern R0 R1 /\ diag R1 = diag R0 /\ forall k', vget (val R1) k' = if Nat.eqb k' k then x else vget (val R0) k'.
Definition wrote (R0 : rcsr) (a b : nat) (h : nat -> R) (R1 : rcsr) : Prop :=
  same_pattern R0 R1 /\ diag R1 = diag R0 /\ forall k', vget (val R1) k' = if Nat.leb a k' && Nat.ltb k' b then h k' else vget (val R0) k'.
Lemma puts_set : forall (R0 : rcsr) k x, (k < length (val R0))%nat -> puts R0 k x (with_val ROps R0 (upd (val R0) k x)).
Proof.
  intros R0 k x Hk. split; [|split].
  - unfold same_pattern, with_val; cbn. toR. rewrite upd_length. intuition.
  - reflexivity.
  - intros k'. cbn. unfold vget. toR. destruct (Nat.eqb_spec k' k) as [->|N]; [apply nth_upd_same; auto|apply nth_upd_other; auto].
Qed.
Lemma puts_same : forall (R0 : rcsr) k, puts R0 k (vget (val R0) k) R0.
Proof. intros R0 k. split; [apply same_pattern_refl|]. split; auto. intros k'. destruct (Nat.eqb_spec k' k); subst; auto. Qed.
Lemma row_writes : forall (R0 : rcsr) a b h body, (a <= b)%nat ->
  (forall k R1, (a <= k < b)%nat -> wrote R0 a k h R1 -> exists R2, body k R1 = Ok R2 /\ puts R1 k (h k) R2) ->
  exists R1, forM_range a b body R0 = Ok R1 /\ wrote R0 a b h R1.
Proof.
  intros R0 a b h body L H. apply (forM_range_inv _ (fun k => wrote R0 a k h)); auto.
  - split; [apply same_pattern_refl|]. split; auto. intros k'. destruct (Nat.leb_spec a k'), (Nat.ltb_spec k' a); cbn; auto; lia.
  - intros k R1 Hk WR. destruct (H k R1 Hk WR) as [R2 [E [P1 [P2 P3]]]]. exists R2. split; auto. destruct WR as [W1 [W2 W3]].
    split; [eapply sp_trans; eauto|]. split; [congruence|]. intros k'. rewrite P3, W3.
    destruct (Nat.eqb_spec k' k), (Nat.leb_spec a k'), (Nat.ltb_spec k' k), (Nat.ltb_spec k' (S k)); cbn; subst; auto; lia.
Qed.
Lemma wrote_other : forall (R0 R1 : rcsr) j b h i c, wf_csr R0 -> (i < m R0)%nat -> (j < m R0)%nat -> i <> j -> (b <= rb R0 (j + 1))%nat ->
  wrote R0 (rb R0 j) b h R1 -> up R1 i c = up R0 i c.
Proof.
  intros R0 R1 j b h i c W Hi Hj N B [SP [_ V]]. apply up_agree; auto. intros k Hk. rewrite V.
  destruct (Nat.leb_spec (rb R0 j) k), (Nat.ltb_spec k b); cbn; auto. exfalso.
  destruct (Nat.lt_total i j) as [Q|[Q|Q]]; [|lia|].
  - pose proof (rb_mono R R0 (i + 1) j W ltac:(lia) ltac:(lia)). lia.
  - pose proof (rb_mono R R0 (j + 1) i W ltac:(lia) ltac:(lia)). lia.
Qed.

Lemma get_rb : forall (C : rcsr) i, wf_csr C -> (i <= m C)%nat -> get (row_ptr C) i = Ok (rb C i).
Proof. intros C i W H. apply get_lt. rewrite (wf_rp C W). lia. Qed.
Lemma get_diag : forall (C : rcsr) i, wf_csr C -> (i < m C)%nat -> get (diag C) i = Ok (vget (diag C) i).
Proof. intros C i W H. apply get_lt. rewrite (wf_diag C W). lia. Qed.
Lemma ent_up : forall C i j, (i < j)%nat -> ent C i j = up C i j.
Proof. intros C i j L. unfold ent. destruct (Nat.eqb_spec i j); [lia|]. destruct (Nat.ltb_spec i j); [auto|lia]. Qed.
Lemma with_diag_sp : forall (C : rcsr) d, length d = length (diag C) -> same_pattern C (with_diag ROps C d).
Proof. intros. unfold same_pattern, with_diag; cbn. repeat split; auto. Qed.
Lemma up_with_diag : forall (C : rcsr) d i j, up (with_diag ROps C d) i j = up C i j.
Proof. reflexivity. Qed.
Lemma vget_upd : forall (l : list R) k x i, (k < length l)%nat -> vget (upd l k x) i = if Nat.eqb i k then x else vget l i.
Proof. intros l k x i H. unfold vget. destruct (Nat.eqb_spec i k) as [->|N]; [apply nth_upd_same; auto|apply nth_upd_other; auto]. Qed.

(** solvers.cpp 46-51 *)
Lemma col_ok : forall (C : rcsr) i j, wf_csr C -> (i < j)%nat -> (j < m C)%nat ->
  (forall c, (j < c < m C)%nat -> has C i j -> has C i c -> has C j c) ->
  exists D, ic_col ROps i j C = Ok D /\ same_pattern C D /\
  forall a b, (a <= b)%nat -> (b < m C)%nat -> ent D a b = if Nat.eqb a j then ent C a b - ent C i a * ent C i b else ent C a b.
Proof.
  intros C i j W L Hj CL. unfold ic_col. toR.
  rewrite (get_diag C j W Hj). cbn [bind]. change (zero ROps) with 0. rewrite (csr_at_ent C i j W ltac:(lia) Hj). cbn [bind].
  assert (LD : (j < length (diag C))%nat) by (rewrite (wf_diag C W); auto).
  rewrite set_lt by auto. cbn [bind sub mul ROps]. toR.
  set (d := upd (diag C) j _). set (C1 := (with_diag ROps C d : rcsr)).
  assert (LU : length d = length (diag C)) by (unfold d; apply upd_length).
  assert (SP : same_pattern C C1) by (apply with_diag_sp; auto). assert (W1 : wf_csr C1) by (eapply same_pattern_wf; eauto).
  assert (M1 : m C1 = m C) by reflexivity.
  rewrite (get_rb C1 j W1), (get_rb C1 (j + 1) W1) by (change (m C1) with (m C); lia). cbn [bind].
  set (h := fun k => vget (val C) k - up C i (nth k (col_ind C) 0%nat) * up C i j).
  destruct (row_writes C1 (rb C1 j) (rb C1 (j + 1)) h
    (fun k (R0 : rcsr) => c <- get (col_ind R0) k ;; if Nat.leb j c then v <- get (val R0) k ;; x <- csr_at 0 R0 i c ;; y <- csr_at 0 R0 i j ;;
       vl <- set (val R0) k (v - x * y) ;; Ok (with_val ROps R0 vl) else Ok R0)) as [D [E WR]].
  - apply rb_mono; auto; lia.
  - intros k R1 Hk WR. pose proof WR as [S1 [D1 V1]]. pose proof (same_pattern_wf C1 R1 W1 S1) as WR1. destruct S1 as [Q1 [Q2 [Q3 _]]].
    assert (Hk' : (nth j (row_ptr R1) 0 <= k < nth (j + 1) (row_ptr R1) 0)%nat) by (rewrite Q1; exact Hk).
    destruct (wf_col R1 j k WR1 ltac:(rewrite Q3, M1; auto) Hk') as [K1 [K2 K3]]. rewrite Q3, M1 in K3.
    rewrite (get_lt _ (col_ind R1) k 0%nat) by auto. cbn [bind]. destruct (Nat.leb_spec j (nth k (col_ind R1) 0%nat)); [|lia].
    rewrite (get_lt _ (val R1) k 0) by auto. cbn [bind].
    rewrite !csr_at_ent by (auto; rewrite Q3, M1; lia). cbn [bind]. rewrite set_lt by auto. cbn [bind].
    eexists. split; [reflexivity|]. rewrite !ent_up by lia.
    rewrite !(wrote_other C1 R1 j k h i) by (auto; try lia; rewrite ?M1; lia).
    replace (h k) with (nth k (val R1) 0 - up C1 i (nth k (col_ind R1) 0%nat) * up C1 i j); [apply puts_set; auto|].
    unfold h. rewrite Q2. change (nth k (val R1) 0) with (vget (val R1) k). rewrite V1.
    replace (Nat.ltb k k) with false by (symmetry; apply Nat.ltb_irrefl). rewrite andb_false_r. reflexivity.
  - exists D. split; [exact E|]. pose proof WR as [S1 [D1 V1]]. split; [eapply sp_trans; eauto|].
    assert (WD : wf_csr D) by (apply (same_pattern_wf C1 D W1 S1)). assert (MD : m D = m C) by (rewrite <- M1; apply S1).
    intros a b Lab Hb. destruct (Nat.eq_dec a b) as [->|Nab].
    + rewrite !ent_diag. rewrite D1. unfold C1, with_diag; cbn [diag]. unfold d. rewrite vget_upd by auto.
      destruct (Nat.eqb_spec b j) as [->|]; auto.
    + rewrite (ent_up D a b), (ent_up C a b) by lia. destruct (Nat.eqb_spec a j) as [->|Naj].
      * rewrite !(ent_up C i) by lia. destruct (has_dec R C j b) as [[k K]|N].
        -- rewrite (up_at D j k b), (up_at C j k b); auto; try lia.
           ++ rewrite V1. destruct K as [K1 K2]. change (rb C1 j) with (rb C j). change (rb C1 (j + 1)) with (rb C (j + 1)).
              replace (Nat.leb (rb C j) k && Nat.ltb k (rb C (j + 1))) with true by (symmetry; apply andb_true_intro; split; [apply Nat.leb_le|apply Nat.ltb_lt]; lia). unfold h. rewrite K2. ring.
           ++ eapply sp_pos; [|exact K]. eapply sp_trans; eauto.
        -- assert (ND : ~ has D j b) by (intros Q; apply N; eapply (sp_has C D); eauto using sp_trans).
           rewrite (up_none D), (up_none C) by (auto; lia).
           destruct (has_dec R C i j) as [Hij|Nij]; [|rewrite (up_none C i j) by (auto; lia); ring].
           destruct (has_dec R C i b) as [Hib|Nib]; [exfalso; apply N; apply CL; auto; lia|rewrite (up_none C i b) by (auto; lia); ring].
      * rewrite (wrote_other C1 D j (rb C1 (j + 1)) h a) by (auto; rewrite ?M1; lia). reflexivity.
Qed.

(** solvers.cpp 40-53 *)
Lemma row_ok : forall (C : rcsr) i, wf_csr C -> (i < m C)%nat -> 0 < ent C i i ->
  (forall j c, (i < j < c)%nat -> (c < m C)%nat -> has C i j -> has C i c -> has C j c) ->
  exists D, ic_row ROps i C = Ok D /\ same_pattern C D /\
  forall a b, (a <= b)%nat -> (b < m C)%nat -> ent D a b =
    if Nat.ltb a i then ent C a b else if Nat.eqb a i then (if Nat.eqb b i then sqrt (ent C i i) else ent C i b / sqrt (ent C i i))
    else ent C a b - ent C i a * ent C i b / ent C i i.
Proof.
  intros C i W Hi POS CL. rewrite ent_diag in POS. unfold ic_row. toR.
  rewrite (get_diag C i W Hi). cbn [bind]. cbn [fsqrt ROps]. rewrite Rsqrtr_ok by lra. cbn [bind].
  set (s := sqrt (vget (diag C) i)). assert (SPOS : 0 < s) by (apply sqrt_lt_R0; auto).
  assert (SS : s * s = vget (diag C) i) by (apply sqrt_sqrt; lra).
  assert (LD : (i < length (diag C))%nat) by (rewrite (wf_diag C W); auto).
  rewrite set_lt by auto. cbn [bind]. set (d := upd (diag C) i s). set (C1 := (with_diag ROps C d : rcsr)).
  assert (LU : length d = length (diag C)) by (unfold d; apply upd_length).
  assert (SP : same_pattern C C1) by (apply with_diag_sp; auto). assert (W1 : wf_csr C1) by (eapply same_pattern_wf; eauto).
  assert (M1 : m C1 = m C) by reflexivity.
  rewrite (get_rb C1 i W1), (get_rb C1 (i + 1) W1) by (change (m C1) with (m C); lia). cbn [bind].
  set (h := fun k => vget (val C) k / s).
  assert (D1 : vget (diag C1) i = s) by (unfold C1, with_diag, d; cbn [diag]; rewrite vget_upd, Nat.eqb_refl by auto; auto).
  destruct (row_writes C1 (rb C1 i) (rb C1 (i + 1)) h
    (fun k (R0 : rcsr) => v <- get (val R0) k ;; d <- get (diag R0) i ;; q <- Rdivr v d ;; vl <- set (val R0) k q ;; Ok (with_val ROps R0 vl))) as [C2 [E WR]].
  - apply rb_mono; auto; lia.
  - intros k R1 Hk WR. pose proof WR as [S1 [DD V1]]. pose proof (same_pattern_wf C1 R1 W1 S1) as WR1. destruct S1 as [Q1 [Q2 [Q3 _]]].
    assert (Hk' : (nth i (row_ptr R1) 0 <= k < nth (i + 1) (row_ptr R1) 0)%nat) by (rewrite Q1; exact Hk).
    destruct (wf_col R1 i k WR1 ltac:(rewrite Q3, M1; auto) Hk') as [K1 [K2 K3]].
    rewrite (get_lt _ (val R1) k 0) by auto. cbn [bind]. rewrite (get_diag R1 i WR1) by (rewrite Q3, M1; auto). cbn [bind].
    rewrite DD, D1. rewrite Rdivr_ok by lra. cbn [bind]. rewrite set_lt by auto. cbn [bind]. eexists. split; [reflexivity|].
    replace (h k) with (nth k (val R1) 0 / s); [apply puts_set; auto|].
    unfold h. change (nth k (val R1) 0) with (vget (val R1) k). rewrite V1.
    replace (Nat.ltb k k) with false by (symmetry; apply Nat.ltb_irrefl). rewrite andb_false_r. reflexivity.
  - match goal with |- exists D, bind ?x _ = _ /\ _ => change x with (forM_range (rb C1 i) (rb C1 (i + 1)) (fun k (R0 : rcsr) => v <- get (val R0) k ;; d <- get (diag R0) i ;; q <- Rdivr v d ;; vl <- set (val R0) k q ;; Ok (with_val ROps R0 vl)) C1) end.
    rewrite E. cbn [bind]. pose proof WR as [S1 [DD V1]].
    assert (S2 : same_pattern C C2) by (eapply sp_trans; eauto). pose proof (same_pattern_wf C C2 W S2) as W2.
    assert (M2 : m C2 = m C) by apply S2. rewrite M2.
    assert (E2 : forall a b, (a <= b)%nat -> (b < m C)%nat -> ent C2 a b = if Nat.eqb a i then (if Nat.eqb b i then s else ent C i b / s) else ent C a b).
    { intros a b Lab Hb. destruct (Nat.eq_dec a b) as [->|Nab].
      - rewrite !ent_diag. rewrite DD. unfold C1, with_diag; cbn [diag]. unfold d. rewrite vget_upd by auto.
        destruct (Nat.eqb_spec b i) as [->|]; auto.
      - rewrite (ent_up C2 a b) by lia. destruct (Nat.eqb_spec a i) as [->|Nai].
        + destruct (Nat.eqb_spec b i) as [->|Nbi]; [lia|]. rewrite ent_up by lia. destruct (has_dec R C i b) as [[k K]|N].
          * rewrite (up_at C2 i k b), (up_at C i k b); auto; try lia; [|eapply sp_pos; eauto].
            rewrite V1. destruct K as [K1 K2]. change (rb C1 i) with (rb C i). change (rb C1 (i + 1)) with (rb C (i + 1)).
            replace (Nat.leb (rb C i) k && Nat.ltb k (rb C (i + 1))) with true by (symmetry; apply andb_true_intro; split; [apply Nat.leb_le|apply Nat.ltb_lt]; lia). reflexivity.
          * assert (ND : ~ has C2 i b) by (intros Q; apply N; eapply (sp_has C C2); eauto). rewrite (up_none C2), (up_none C) by (auto; lia). field. lra.
        + rewrite (wrote_other C1 C2 i (rb C1 (i + 1)) h a) by (auto; rewrite ?M1; lia). rewrite ent_up by lia. reflexivity. }
    destruct (forM_range_inv _ (fun t (R0 : rcsr) => same_pattern C R0 /\ forall a b, (a <= b)%nat -> (b < m C)%nat -> ent R0 a b =
       if Nat.ltb i a && Nat.ltb a t then ent C2 a b - ent C2 i a * ent C2 i b else ent C2 a b) (ic_col ROps i) (i + 1) (m C) C2 ltac:(lia)) as [D [ED [SD VD]]].
    + split; auto. intros a b Lab Hb. destruct (Nat.ltb_spec i a), (Nat.ltb_spec a (i + 1)); cbn [andb]; auto; lia.
    + intros j R0 Hj [S0 V0]. pose proof (same_pattern_wf C R0 W S0) as W0. assert (M0 : m R0 = m C) by apply S0.
      destruct (col_ok R0 i j W0 ltac:(lia) ltac:(lia)) as [R1 [X1 [X2 X3]]].
      { intros c Hc H1 H2. apply (sp_has R0 C); [apply sp_sym; auto|]. apply CL; try lia; eapply sp_has; eauto. }
      exists R1. split; [exact X1|]. split; [eapply sp_trans; eauto|]. intros a b Lab Hb. rewrite X3 by lia.
      destruct (Nat.eqb_spec a j) as [->|Naj].
      * rewrite (V0 j b), (V0 i j), (V0 i b) by lia.
        destruct (Nat.ltb_spec i j), (Nat.ltb_spec j j), (Nat.ltb_spec j (S j)), (Nat.ltb_spec i i); cbn [andb]; try lia; auto.
      * rewrite V0 by lia. destruct (Nat.ltb_spec i a), (Nat.ltb_spec a j), (Nat.ltb_spec a (S j)); cbn [andb]; auto; lia.
    + exists D. split; [exact ED|]. split; auto. intros a b Lab Hb. rewrite VD by lia. rewrite ent_diag. fold s.
      destruct (Nat.ltb_spec a i) as [L1|L1].
      * destruct (Nat.ltb_spec i a); [lia|]. cbn [andb]. rewrite E2 by lia. destruct (Nat.eqb_spec a i); [lia|auto].
      * destruct (Nat.eqb_spec a i) as [->|Nai].
        -- destruct (Nat.ltb_spec i i); [lia|]. cbn [andb]. rewrite E2 by lia. rewrite Nat.eqb_refl. auto.
        -- destruct (Nat.ltb_spec i a); [|lia]. destruct (Nat.ltb_spec a (m C)); [|lia]. cbn [andb]. rewrite !E2 by lia. rewrite Nat.eqb_refl.
           destruct (Nat.eqb_spec a i), (Nat.eqb_spec b i); try lia. rewrite <- SS. field. lra.
Qed.

Definition triu (C : rcsr) (a b : nat) : R := if Nat.leb a b then ent C a b else 0.
(** solvers.cpp 34-53 *)
Lemma factor_ok : forall (C : rcsr), wf_csr C -> pd_from (m C) 0 (ent C) ->
  (forall i j c, (i < j < c)%nat -> (c < m C)%nat -> has C i j -> has C i c -> has C j c) ->
  exists F, ic_factor ROps C = Ok F /\ same_pattern C F /\ (forall k, (k < m C)%nat -> 0 < ent F k k) /\
  forall a b, (a < m C)%nat -> (b < m C)%nat -> sumn (m C) (fun k => triu F k a * triu F k b) = ent C a b.
Proof.
  intros C W PD CL. set (n := m C) in *. unfold ic_factor. toR. fold n.
  destruct (forM_up_inv _ (fun i (R0 : rcsr) => same_pattern C R0 /\ (forall k, (k < i)%nat -> 0 < ent R0 k k) /\ pd_from n i (ent R0) /\
     forall a b, (a <= b)%nat -> (b < n)%nat -> ent C a b = sumn n (fun k => if Nat.ltb k i && Nat.leb k a then ent R0 k a * ent R0 k b else 0) + (if Nat.leb i a then ent R0 a b else 0))
     (ic_row ROps) n C) as [F [E [SP [POS [_ SUM]]]]].
  - split; [apply same_pattern_refl|]. split; [intros; lia|]. split; auto. intros a b Lab Hb. rewrite sumn_0 by (intros; cbn; auto). cbn [Nat.leb]. ring.
  - intros i R0 Hi [S0 [P0 [D0 V0]]]. pose proof (same_pattern_wf C R0 W S0) as W0. assert (M0 : m R0 = n) by apply S0.
    pose proof (pd_head n i (ent R0) Hi D0) as HD.
    destruct (row_ok R0 i W0 ltac:(lia) HD) as [R1 [X1 [X2 X3]]].
    { intros j c Hj Hc H1 H2. apply (sp_has R0 C); [apply sp_sym; auto|]. apply (CL i); try lia; eapply sp_has; eauto. }
    rewrite M0 in X3. set (s := sqrt (ent R0 i i)) in *. assert (SPOS : 0 < s) by (apply sqrt_lt_R0; auto).
    assert (SS : s * s = ent R0 i i) by (apply sqrt_sqrt; lra).
    exists R1. split; [exact X1|]. split; [eapply sp_trans; eauto|]. split; [|split].
    + intros k Hk. rewrite X3 by lia. destruct (Nat.ltb_spec k i); [apply P0; auto|]. assert (k = i) by lia. subst k. rewrite Nat.eqb_refl. auto.
    + apply (pd_schur n i (ent R0) (ent R1) Hi); auto; [apply ent_sym|]. intros a b Ha Hb.
      assert (G : forall a b, (i < a)%nat -> (a <= b)%nat -> (b < n)%nat -> ent R1 a b = ent R0 a b - ent R0 i a * ent R0 i b / ent R0 i i).
      { clear a b Ha Hb. intros a b Ha Lab Hb. rewrite X3 by lia. destruct (Nat.ltb_spec a i); [lia|]. destruct (Nat.eqb_spec a i); [lia|]. auto. }
      destruct (le_lt_dec a b); [apply G; lia|]. rewrite (ent_sym R1), (ent_sym R0 a b). rewrite G by lia. unfold Rdiv. ring.
    + intros a b Lab Hb. rewrite (V0 a b Lab Hb).
      set (term := if Nat.leb i a then ent R1 i a * ent R1 i b else 0).
      assert (TE : sumn n (fun k => if Nat.ltb k (S i) && Nat.leb k a then ent R1 k a * ent R1 k b else 0) =
        sumn n (fun k => if Nat.ltb k i && Nat.leb k a then ent R0 k a * ent R0 k b else 0) + term).
      { rewrite <- (sumn_delta n i (fun _ => term) Hi). rewrite <- sumn_plus. apply sumn_ext. intros k Hk.
        destruct (Nat.eqb_spec k i) as [->|Nk].
        - destruct (Nat.ltb_spec i (S i)), (Nat.ltb_spec i i); try lia. cbn [andb]. unfold term. ring.
        - destruct (Nat.ltb_spec k (S i)), (Nat.ltb_spec k i), (Nat.leb_spec k a); cbn [andb]; try lia; try ring.
          rewrite !X3 by lia. destruct (Nat.ltb_spec k i); [ring|lia]. }
      rewrite TE. unfold term. rewrite Rplus_assoc. f_equal.
      destruct (Nat.leb_spec i a) as [L1|L1], (Nat.leb_spec (S i) a) as [L2|L2]; try lia; [| |ring].
      * rewrite !X3 by lia. destruct (Nat.ltb_spec i i), (Nat.ltb_spec a i); try lia. rewrite Nat.eqb_refl.
        destruct (Nat.eqb_spec a i), (Nat.eqb_spec b i); try lia. rewrite <- SS. field. lra.
      * assert (a = i) by lia. subst a. rewrite !X3 by lia. destruct (Nat.ltb_spec i i); try lia. rewrite Nat.eqb_refl.
        destruct (Nat.eqb_spec b i) as [->|]; [rewrite SS; ring|field; lra].
  - exists F. split; [exact E|]. split; auto. split; auto.
    assert (G : forall a b, (a <= b)%nat -> (b < n)%nat -> sumn n (fun k => triu F k a * triu F k b) = ent C a b).
    { intros a b Lab Hb. rewrite (SUM a b Lab Hb). destruct (Nat.leb_spec n a); [lia|]. rewrite Rplus_0_r. apply sumn_ext. intros k Hk.
      unfold triu. destruct (Nat.ltb_spec k n); [|lia]. destruct (Nat.leb_spec k a), (Nat.leb_spec k b); cbn [andb]; try lia; ring. }
    intros a b Ha Hb. destruct (le_lt_dec a b); [apply G; auto|]. rewrite ent_sym. rewrite <- G by lia. apply sumn_ext. intros; ring.
Qed.

(** solvers.cpp 59-76: how an entry of the second stage comes from the factor and the rows below *)
Definition below (n : nat) (U L : mat) (i j : nat) : R := sumn n (fun c => if Nat.ltb i c && Nat.leb c j then U i c * L c j else 0).
Lemma pure_sum : forall (l : list (nat * R)) (f : nat -> R -> R) acc,
  forM_list l (fun cv (s : R) => Ok (s + f (fst cv) (snd cv))) acc = Ok (acc + lsum l f).
Proof.
  unfold lsum; induction l as [|[c v] l IH]; intros f acc; cbn [forM_list fold_right fst snd bind]; [f_equal; ring|].
  rewrite IH. f_equal. ring.
Qed.
Lemma forM_from_ext : forall X (f g : nat -> X -> res X) n a s, (forall k s, (a <= k < a + n)%nat -> f k s = g k s) -> forM_from n a f s = forM_from n a g s.
Proof.
  intros X f g; induction n as [|n IH]; intros a s H; cbn; auto. rewrite H by lia. destruct (g a s); cbn; auto. apply IH. intros; apply H; lia.
Qed.
Lemma entry_ok : forall (C : rcsr) i j, wf_csr C -> (i < j)%nat -> (j < m C)%nat ->
  exists D, ic_inv_entry ROps i j C = Ok D /\ same_pattern C D /\
  forall a b, (a <= b)%nat -> (b < m C)%nat -> (has C i j \/ ent D a b = ent C a b) /\ ((has C i j \/ (a, b) <> (i, j)) -> ent D a b =
    if Nat.eqb a i && Nat.eqb b j then (if Req_EM_T (below (m C) (ent C) (ent C) i j) 0 then ent C i j else - below (m C) (ent C) (ent C) i j * ent C i i) else ent C a b).
Proof.
  intros C i j W L Hj. unfold ic_inv_entry. toR.
  rewrite (get_rb C i W), (get_rb C (i + 1) W) by lia. cbn [bind].
  pose proof (wf_mono C W i ltac:(lia)) as Mo. pose proof (wf_bound C W (i + 1) ltac:(lia)) as B. pose proof (wf_cv C W) as CV.
  set (f := fun c v => if Nat.leb c j then v * ent C c j else 0).
  match goal with |- exists D, bind ?x _ = _ /\ _ => assert (SE : x = Ok (below (m C) (ent C) (ent C) i j)) end.
  { unfold forM_range. transitivity (forM_from (rb C (i + 1) - rb C i) (rb C i) (fun k (s : R) => v <- get (val C) k ;; c <- get (col_ind C) k ;; Ok (s + f c v)) 0).
    - apply forM_from_ext. intros k s Hk.
      assert (Hk' : (nth i (row_ptr C) 0 <= k < nth (i + 1) (row_ptr C) 0)%nat) by (unfold rb in *; lia).
      destruct (wf_col C i k W ltac:(lia) Hk') as [K1 [K2 K3]].
      rewrite (get_lt _ (col_ind C) k 0%nat), (get_lt _ (val C) k 0) by auto. cbn [bind]. unfold f.
      destruct (Nat.leb_spec (nth k (col_ind C) 0%nat) j); [|f_equal; ring].
      cbn [add mul zero ROps]. rewrite csr_at_ent by (auto; lia). cbn [bind]. auto.
    - unfold rb in *. rewrite (loop_slice R (fun c v (s : R) => Ok (s + f c v))) by lia.
      rewrite pure_sum. f_equal. rewrite Rplus_0_l. unfold f.
      change (lsum (row_entries C i) (fun c v => if Nat.leb c j then v * ent C c j else 0) = below (m C) (ent C) (ent C) i j).
      rewrite (lsum_ext _ _ (fun c v => v * (if Nat.leb c j then ent C c j else 0))) by (intros c v _; destruct (Nat.leb c j); ring).
      rewrite (lsum_gather _ (m C)); [|apply (wf_nodup C W i); lia|intros c v I; apply (wf_upper C W) in I; lia].
      apply sumn_ext. intros c Hc. fold (up C i c). destruct (Nat.ltb_spec i c) as [Q|Q]; cbn [andb].
      + rewrite (ent_up C i c) by lia. destruct (Nat.leb c j); ring.
      + rewrite (up_lower C i c) by (auto; lia). ring. }
  rewrite SE. cbn [bind]. set (sm := below _ _ _ i j). cbn [eqb ROps zero]. unfold Reqb.
  destruct (Req_EM_T sm 0) as [Z|NZ].
  - exists C. split; auto. split; [apply same_pattern_refl|]. intros a b Lab Hb. split; auto. intros _.
    destruct (Nat.eqb_spec a i), (Nat.eqb_spec b j); cbn [andb]; subst; auto.
  - set (h := fun k => if Nat.eqb (nth k (col_ind C) 0%nat) j then - sm * vget (diag C) i else vget (val C) k).
    destruct (row_writes C (rb C i) (rb C (i + 1)) h
      (fun k (R0 : rcsr) => c <- get (col_ind R0) k ;; if Nat.eqb c j then d <- get (diag R0) i ;; vl <- set (val R0) k (- sm * d) ;; Ok (with_val ROps R0 vl) else Ok R0)) as [D [E WR]].
    + apply rb_mono; auto; lia.
    + intros k R1 Hk WR. pose proof WR as [S1 [DD V1]]. pose proof (same_pattern_wf C R1 W S1) as WR1. destruct S1 as [Q1 [Q2 [Q3 _]]].
      assert (Hk' : (nth i (row_ptr R1) 0 <= k < nth (i + 1) (row_ptr R1) 0)%nat) by (rewrite Q1; exact Hk).
      destruct (wf_col R1 i k WR1 ltac:(lia) Hk') as [K1 [K2 K3]].
      rewrite (get_lt _ (col_ind R1) k 0%nat) by auto. cbn [bind]. unfold h. rewrite <- Q2. destruct (Nat.eqb_spec (nth k (col_ind R1) 0%nat) j).
      * rewrite (get_diag R1 i WR1) by lia. cbn [bind]. rewrite set_lt by auto. cbn [bind]. eexists. split; [reflexivity|]. rewrite DD. apply puts_set; auto.
      * exists R1. split; auto. replace (vget (val C) k) with (vget (val R1) k); [apply puts_same|]. rewrite V1.
        replace (Nat.ltb k k) with false by (symmetry; apply Nat.ltb_irrefl). rewrite andb_false_r. reflexivity.
    + exists D. split; [exact E|]. pose proof WR as [S1 [DD V1]]. split; auto. pose proof (same_pattern_wf C D W S1) as WD. assert (MD : m D = m C) by apply S1.
      intros a b Lab Hb. split.
      { destruct (has_dec R C i j) as [Y|N]; auto. right. destruct (Nat.eq_dec a b) as [->|Nab]; [rewrite !ent_diag, DD; auto|].
        rewrite !ent_up by lia. apply up_agree; auto; [lia|]. intros k Hk. rewrite V1.
        destruct (Nat.leb_spec (rb C i) k), (Nat.ltb_spec k (rb C (i + 1))); cbn [andb]; auto. unfold h.
        destruct (Nat.eqb_spec (nth k (col_ind C) 0%nat) j); auto. exfalso. apply N. exists k. split; auto. }
      intros HAS. destruct (Nat.eq_dec a b) as [->|Nab].
      * rewrite !ent_diag, DD. destruct (Nat.eqb_spec b i), (Nat.eqb_spec b j); cbn [andb]; auto; lia.
      * rewrite (ent_up D a b), (ent_up C a b) by lia. destruct (Nat.eqb_spec a i) as [->|Nai].
        -- destruct (has_dec R C i b) as [[k K]|N].
           ++ rewrite (up_at D i k b), (up_at C i k b); auto; try lia; [|eapply sp_pos; eauto].
              rewrite V1. destruct K as [K1 K2].
              replace (Nat.leb (rb C i) k && Nat.ltb k (rb C (i + 1))) with true by (symmetry; apply andb_true_intro; split; [apply Nat.leb_le|apply Nat.ltb_lt]; lia).
              unfold h. rewrite K2, ent_diag. destruct (Nat.eqb_spec b j); cbn [andb]; auto.
           ++ assert (ND : ~ has D i b) by (intros Q; apply N; eapply (sp_has C D); eauto). rewrite (up_none D), (up_none C) by (auto; lia).
              destruct (Nat.eqb_spec b j) as [->|]; cbn [andb]; auto. exfalso. destruct HAS; [auto|congruence].
        -- cbn [andb]. apply (wrote_other C D i (rb C (i + 1)) h); auto; lia.
Qed.

(** the second stage: L in terms of the factor U *)
Definition second_stage (stored : nat -> nat -> Prop) (n : nat) (U L : mat) : Prop :=
  (forall i, (i < n)%nat -> L i i = / U i i) /\
  forall i j, (i < j < n)%nat -> stored i j -> L i j = if Req_EM_T (below n U L i j) 0 then U i j else - below n U L i j / U i i.

Lemma below_ext : forall n U U' L L' i j, (i < j < n)%nat -> (forall c, (i < c <= j)%nat -> U i c = U' i c) -> (forall c, (i < c <= j)%nat -> L c j = L' c j) ->
  below n U L i j = below n U' L' i j.
Proof.
  intros n U U' L L' i j H HU HL. apply sumn_ext. intros c Hc. destruct (Nat.ltb_spec i c), (Nat.leb_spec c j); cbn [andb]; auto.
  rewrite HU, HL by lia. auto.
Qed.
Lemma inverse_ok : forall (F : rcsr), wf_csr F -> (forall k, (k < m F)%nat -> ent F k k <> 0) ->
  exists L, forM_down (m F) (ic_inv_row ROps) F = Ok L /\ same_pattern F L /\ second_stage (has F) (m F) (ent F) (ent L).
Proof.
  intros F W NZ. set (n := m F) in *.
  destruct (forM_down_inv _ (fun i (R0 : rcsr) => same_pattern F R0 /\
     (forall a b, (a <= b)%nat -> (b < n)%nat -> (a < i)%nat -> ent R0 a b = ent F a b) /\
     (forall a, (i <= a < n)%nat -> ent R0 a a = / ent F a a) /\
     forall a b, (i <= a)%nat -> (a < b < n)%nat -> has F a b -> ent R0 a b = if Req_EM_T (below n (ent F) (ent R0) a b) 0 then ent F a b else - below n (ent F) (ent R0) a b / ent F a a)
     (ic_inv_row ROps) n F) as [L [E [SP [_ [DG OF]]]]].
  - split; [apply same_pattern_refl|]. split; auto. split; intros; lia.
  - intros i R0 Hi [S0 [A0 [D0 O0]]]. pose proof (same_pattern_wf F R0 W S0) as W0. assert (M0 : m R0 = n) by apply S0.
    unfold ic_inv_row. toR. rewrite (get_diag R0 i W0) by lia. cbn [bind div one ROps].
    assert (NI : vget (diag R0) i <> 0) by (rewrite <- ent_diag, A0 by lia; apply NZ; auto). rewrite Rdivr_ok by auto. cbn [bind].
    assert (LD : (i < length (diag R0))%nat) by (rewrite (wf_diag R0 W0); lia). rewrite set_lt by auto. cbn [bind].
    set (q := 1 / vget (diag R0) i). assert (QE : q = / ent F i i) by (unfold q; rewrite <- ent_diag, A0 by lia; field; apply NZ; auto).
    set (d := upd (diag R0) i q). set (C1 := (with_diag ROps R0 d : rcsr)).
    assert (LU : length d = length (diag R0)) by (unfold d; apply upd_length).
    assert (SP1 : same_pattern R0 C1) by (apply with_diag_sp; auto). assert (W1 : wf_csr C1) by (eapply same_pattern_wf; eauto).
    assert (M1 : m C1 = n) by exact M0.
    assert (E1 : forall a b, (a <= b)%nat -> (b < n)%nat -> ent C1 a b = if Nat.eqb a i && Nat.eqb b i then q else ent R0 a b).
    { intros a b Lab Hb. destruct (Nat.eq_dec a b) as [->|Nab].
      - rewrite !ent_diag. unfold C1, with_diag; cbn [diag]. unfold d. rewrite vget_upd by auto. destruct (Nat.eqb_spec b i); cbn [andb]; auto.
      - rewrite (ent_up C1), (ent_up R0) by lia. destruct (Nat.eqb_spec a i), (Nat.eqb_spec b i); cbn [andb]; try lia; reflexivity. }
    change (m (with_diag ROps R0 d)) with (m C1). rewrite M1.
    set (l := fun j => if Req_EM_T (below n (ent F) (ent R0) i j) 0 then ent F i j else - below n (ent F) (ent R0) i j / ent F i i).
    destruct (forM_down_inv _ (fun t (R1 : rcsr) => same_pattern F R1 /\ forall a b, (a <= b)%nat -> (b < n)%nat ->
        (has F a b \/ a <> i \/ a = b \/ (b < i + 1 + t)%nat -> ent R1 a b = if Nat.eqb a i && Nat.leb (i + 1 + t) b then l b else ent C1 a b))
      (fun t (R1 : rcsr) => ic_inv_entry ROps i (i + 1 + t) R1) (n - (i + 1)) C1) as [R2 [X1 [X2 X3]]].
    + split; [eapply sp_trans; eauto|]. intros a b Lab Hb _. destruct (Nat.leb_spec (i + 1 + (n - (i + 1))) b); [lia|]. rewrite andb_false_r. auto.
    + intros t R1 Ht [S1 V1]. pose proof (same_pattern_wf F R1 W S1) as WR1. assert (MR1 : m R1 = n) by apply S1.
      set (j := (i + 1 + t)%nat) in *. destruct (entry_ok R1 i j WR1 ltac:(lia) ltac:(lia)) as [R2 [Y1 [Y2 Y3]]].
      exists R2. split; [exact Y1|]. split; [eapply sp_trans; eauto|]. intros a b Lab Hb CASE.
      assert (HY : has R1 i j \/ (a, b) <> (i, j)).
      { destruct (Nat.eq_dec a i) as [->|N1]; [|right; congruence]. destruct (Nat.eq_dec b j) as [->|N2]; [|right; congruence].
        destruct CASE as [Q|[Q|[Q|Q]]]; [|lia|lia|lia]. left. apply (sp_has R1 F); [apply sp_sym; auto|auto]. }
      destruct (Y3 a b Lab ltac:(lia)) as [_ Y4]. rewrite (Y4 HY). rewrite MR1.
      assert (BE : below n (ent R1) (ent R1) i j = below n (ent F) (ent R0) i j).
      { apply below_ext; try lia.
        - intros c Hc. rewrite V1 by lia. destruct (Nat.leb_spec (i + 1 + S t) c); [lia|]. rewrite andb_false_r. rewrite E1 by lia.
          destruct (Nat.eqb_spec c i); [lia|]. rewrite andb_false_r. apply A0; lia.
        - intros c Hc. rewrite V1 by lia. destruct (Nat.eqb_spec c i); [lia|]. cbn [andb]. rewrite E1 by lia. destruct (Nat.eqb_spec c i); [lia|]. auto. }
      rewrite BE.
      assert (II : ent R1 i i = / ent F i i).
      { rewrite V1 by lia. destruct (Nat.leb_spec (i + 1 + S t) i); [lia|]. rewrite andb_false_r. rewrite E1 by lia. rewrite Nat.eqb_refl. cbn [andb]. auto. }
      assert (IJ : ent R1 i j = ent F i j).
      { rewrite V1 by lia. destruct (Nat.leb_spec (i + 1 + S t) j); [lia|]. rewrite andb_false_r. rewrite E1 by lia.
        destruct (Nat.eqb_spec j i); [lia|]. rewrite andb_false_r. apply A0; lia. }
      destruct (Nat.eqb_spec a i) as [->|Na]; cbn [andb].
      * destruct (Nat.eqb_spec b j) as [->|Nb].
        -- destruct (Nat.leb_spec j j); [|lia]. unfold l. rewrite II, IJ. destruct (Req_EM_T _ 0); auto.
        -- rewrite V1 by (auto; destruct CASE as [Q|[Q|[Q|Q]]]; auto; lia). rewrite Nat.eqb_refl. cbn [andb]. destruct (Nat.leb_spec (i + 1 + S t) b), (Nat.leb_spec j b); auto; lia.
      * rewrite V1 by lia. destruct (Nat.eqb_spec a i); [lia|]. auto.
    + exists R2. split; [exact X1|]. split; auto.
      assert (X4 : forall a b, (a <= b)%nat -> (b < n)%nat -> a <> i -> ent R2 a b = ent R0 a b).
      { intros a b Lab Hb N. rewrite X3 by lia. rewrite E1 by lia. destruct (Nat.eqb_spec a i); [lia|]. auto. }
      split; [|split].
      * intros a b Lab Hb La. rewrite X4 by lia. apply A0; lia.
      * intros a Ha. destruct (Nat.eq_dec a i) as [->|N].
        -- rewrite X3 by lia. destruct (Nat.leb_spec (i + 1 + 0) i); [lia|]. rewrite andb_false_r. rewrite E1 by lia. rewrite Nat.eqb_refl. cbn [andb]. auto.
        -- rewrite X4 by lia. apply D0. lia.
      * intros a b La Hb HF.
        assert (BE : below n (ent F) (ent R2) a b = below n (ent F) (ent R0) a b) by (apply below_ext; auto; intros c Hc; apply X4; lia).
        rewrite BE. destruct (Nat.eq_dec a i) as [->|N].
        -- rewrite X3 by (auto; lia). rewrite Nat.eqb_refl. destruct (Nat.leb_spec (i + 1 + 0) b); [|lia]. cbn [andb]. reflexivity.
        -- rewrite X4 by lia. apply O0; auto; lia.
  - exists L. split; [exact E|]. split; auto. split; [intros; apply DG; lia|]. intros i j H HF. apply OF; auto; lia.
Qed.

(** ** When the second stage is the inverse *)
Lemma inverse_step : forall n (U V : mat) i j, upper n U -> (forall i, (i < n)%nat -> U i i <> 0) -> inverses n U V -> (i < j < n)%nat ->
  U i i * V i j = - below n U V i j.
Proof.
  intros n U V i j UP NZ IV H. destruct (IV i j ltac:(lia) ltac:(lia)) as [E _]. unfold delta in E. destruct (Nat.eqb_spec i j); [lia|].
  destruct (inverse_upper n U V UP NZ IV) as [UV _].
  rewrite (sumn_split3 n i) in E by lia. rewrite (sumn_0 n (fun j0 => if Nat.ltb j0 i then _ else 0)) in E.
  - assert (Q : sumn n (fun c => if Nat.ltb i c then U i c * V c j else 0) = below n U V i j).
    { apply sumn_ext. intros c Hc. destruct (Nat.ltb_spec i c), (Nat.leb_spec c j); cbn [andb]; auto. rewrite (UV c j) by lia. ring. }
    rewrite Q in E. lra.
  - intros c Hc. destruct (Nat.ltb_spec c i); auto. rewrite UP by lia. ring.
Qed.
Lemma stage_iff : forall n (U L V : mat), upper n U -> (forall i, (i < n)%nat -> U i i <> 0) -> inverses n U V -> second_stage (fun _ _ => True) n U L ->
  ((forall i j, (i <= j)%nat -> (j < n)%nat -> L i j = V i j) <-> no_new_zero n U V).
Proof.
  intros n U L V UP NZ IV [DG OF]. destruct (inverse_upper n U V UP NZ IV) as [UV DV]. split.
  - intros EQ i j H Z. pose proof (inverse_step n U V i j UP NZ IV H) as E. rewrite Z, Rmult_0_r in E.
    assert (B : below n U L i j = 0) by (rewrite (below_ext n U U L V i j) by (auto; intros; apply EQ; lia); lra).
    specialize (OF i j H I). destruct (Req_EM_T (below n U L i j) 0); [|contradiction]. rewrite EQ in OF by lia. lra.
  - intros NN.
    assert (G : forall d i, (n - i <= d)%nat -> forall j, (i <= j)%nat -> (j < n)%nat -> L i j = V i j).
    { induction d as [|d IH]; intros i Hd j Lij Hj; [lia|].
      destruct (Nat.eq_dec i j) as [->|N]; [rewrite DG, DV by auto; auto|].
      assert (B : below n U L i j = below n U V i j) by (apply below_ext; auto; try lia; intros c Hc; apply IH; lia).
      pose proof (inverse_step n U V i j UP NZ IV ltac:(lia)) as E. rewrite (OF i j) by (auto; lia). rewrite B.
      pose proof (NZ i ltac:(lia)) as NZi.
      destruct (Req_EM_T (below n U V i j) 0) as [Z|NB].
      - assert (VZ : V i j = 0) by (rewrite Z, Ropp_0 in E; apply Rmult_integral in E; destruct E; auto; contradiction).
        rewrite (NN i j ltac:(lia) VZ), VZ. auto.
      - rewrite <- E. field. auto. }
    intros i j. apply (G (n - i)%nat); lia.
Qed.

Lemma stage_weaken : forall (P Q : nat -> nat -> Prop) n U L, (forall i j, (i < j < n)%nat -> Q i j -> P i j) -> second_stage P n U L -> second_stage Q n U L.
Proof. intros P Q n U L H [A B]. split; auto. Qed.

(** ** Back substitution *)
Lemma upper_solve : forall n (U : mat) b, upper n U -> (forall i, (i < n)%nat -> U i i <> 0) ->
  exists x : nat -> R, forall i, (i < n)%nat -> sumn n (fun k => U i k * x k) = b i.
Proof.
  intros n U b UP NZ.
  assert (G : forall d, (d <= n)%nat -> exists x, (forall k, (k < n - d)%nat -> x k = 0) /\ forall i, (n - d <= i < n)%nat -> sumn n (fun k => U i k * x k) = b i).
  { induction d as [|d IH]; intros Hd; [exists (fun _ => 0); split; [auto|intros; lia]|].
    destruct (IH ltac:(lia)) as [x [X1 X2]]. set (i := (n - S d)%nat).
    set (y := (b i - sumn n (fun k => U i k * x k)) / U i i). assert (Hi : (i < n)%nat) by (unfold i; lia).
    assert (E : forall a, (a < n)%nat -> sumn n (fun k => U a k * (x k + y * delta k i)) = sumn n (fun k => U a k * x k) + y * U a i).
    { intros a Ha. rewrite (sumn_ext n _ (fun k => U a k * x k + y * (U a k * delta k i))) by (intros; ring). rewrite sumn_plus, sumn_scal, sumn_delta_r by auto. auto. }
    exists (fun k => x k + y * delta k i). split.
    - intros k Hk. rewrite X1 by (unfold i in *; lia). unfold delta. destruct (Nat.eqb_spec k i); [unfold i in *; lia|ring].
    - intros a Ha. rewrite E by lia. destruct (Nat.eq_dec a i) as [->|N].
      + unfold y. field. apply NZ; auto.
      + rewrite (UP a i) by (unfold i in *; lia). rewrite X2 by (unfold i in *; lia). ring. }
  destruct (G n ltac:(lia)) as [x [_ X]]. exists x. intros i Hi. apply X. lia.
Qed.
Lemma inverse_exists : forall n (U : mat), upper n U -> (forall i, (i < n)%nat -> U i i <> 0) -> exists V, inverses n U V.
Proof.
  intros n U UP NZ.
  assert (G : forall q, (q <= n)%nat -> exists V : mat, forall i j, (i < n)%nat -> (j < q)%nat -> sumn n (fun k => U i k * V k j) = delta i j).
  { induction q as [|q IH]; intros Hq; [exists (fun _ _ => 0); intros; lia|].
    destruct (IH ltac:(lia)) as [V HV]. destruct (upper_solve n U (fun i => delta i q) UP NZ) as [x HX].
    exists (fun k j => if Nat.eqb j q then x k else V k j). intros i j Hi Hj. destruct (Nat.eqb_spec j q) as [->|N]; [apply HX; auto|apply HV; lia]. }
  destruct (G n ltac:(lia)) as [V HV]. exists V. apply right_left; auto.
Qed.
