(** The factor computed by the incomplete Cholesky routine has a non-zero diagonal whenever it is computed at all. *)
From Coq Require Import String.
From Coq Require Import List Arith ZArith NArith Bool Lia Reals Lra.
From Verif Require Import Base AlgebraModel AlgebraSpec Csr_proofs SumR Mult_proofs Vec_proofs SolversModel Safe_proofs Solver_proofs.
Import ListNotations.

(** P holds of the result, if there is one *)
Definition okP {A} (P : A -> Prop) (r : res A) : Prop := forall a, r = Ok a -> P a.
Lemma okP_ok : forall A (P : A -> Prop) a, P a -> okP P (Ok a).
Proof. intros A P a H b E; inversion E; subst; auto. Qed.
Lemma okP_bind : forall A B (Q : B -> Prop) (x : res A) f, (forall a, x = Ok a -> okP Q (f a)) -> okP Q (bind x f).
Proof. intros A B Q x f H b E. destruct x as [a|?|?|?]; cbn in E; try discriminate. apply (H a); auto. Qed.
Lemma okP_from : forall S (P : S -> Prop) body n a s, P s -> (forall i s, P s -> okP P (body i s)) -> okP P (forM_from n a body s).
Proof.
  intros S P body; induction n as [|n IH]; intros a s H K; cbn; [apply okP_ok; auto|].
  apply okP_bind. intros s' E. apply IH; auto. apply (K a s H s' E).
Qed.
Lemma okP_down : forall X (I : nat -> X -> Prop) (body : nat -> X -> res X) n s, I n s -> (forall i s, (i < n)%nat -> I (S i) s -> okP (I i) (body i s)) -> okP (I 0%nat) (forM_down n body s).
Proof.
  intros X I body; induction n as [|n IH]; intros s H K; cbn; [apply okP_ok; auto|].
  apply okP_bind. intros s' E. apply IH; auto. apply (K n s ltac:(lia) H s' E).
Qed.

Local Open Scope R_scope.
Lemma inv_entry_diag : forall i j (M : rcsr) D, diag M = D -> okP (fun M' : rcsr => diag M' = D) (ic_inv_entry ROps i j M).
Proof.
  intros i j M D HD. unfold ic_inv_entry. do 3 (apply okP_bind; intros ? ?). destruct (eqb _ _ _); [apply okP_ok; auto|].
  apply okP_from; auto. intros k s Hs. apply okP_bind; intros ? ?. destruct (Nat.eqb _ _); [|apply okP_ok; auto].
  do 2 (apply okP_bind; intros ? ?). apply okP_ok. cbn. auto.
Qed.
Lemma inv_row_diag : forall i (M : rcsr) n, length (diag M) = n ->
  (forall k, (S i <= k < n)%nat -> vget (diag M) k <> 0) ->
  okP (fun M' : rcsr => length (diag M') = n /\ forall k, (i <= k < n)%nat -> vget (diag M') k <> 0) (ic_inv_row ROps i M).
Proof.
  intros i M n L H. unfold ic_inv_row. apply okP_bind; intros d Ed. apply okP_bind; intros q Eqq. apply okP_bind; intros dg Edg.
  assert (QN : q <> 0).
  { cbn [div ROps one] in Eqq. unfold Rdivr in Eqq. toR. destruct (Req_EM_T d 0); [discriminate|]. inversion Eqq. unfold Rdiv. rewrite Rmult_1_l. apply Rinv_neq_0_compat; auto. }
  assert (Li : (i < n)%nat).
  { destruct (Nat.lt_ge_cases i n) as [|GE]; auto. exfalso. unfold get in Ed.
    assert (NE : nth_error (diag M) i = None) by (apply nth_error_None; lia). toR. rewrite NE in Ed. discriminate. }
  toR. rewrite set_lt in Edg by lia. inversion Edg; subst dg.
  intros M' E. assert (X : diag M' = upd (diag M) i q).
  { revert M' E. apply (okP_down rcsr (fun _ M' => diag M' = upd (diag M) i q)); auto. intros t s Ht Hs. apply inv_entry_diag; auto. }
  rewrite X, upd_length. split; auto. intros k Hk. unfold vget. rewrite nth_upd by lia. destruct (Nat.eqb_spec k i); auto. apply H; lia.
Qed.
Lemma ic_diag_nz : forall (A L : rcsr), wf_csr A -> ic_decomposition ROps A = Ok L -> forall i, (i < m A)%nat -> vget (diag L) i <> 0.
Proof.
  intros A L W E. unfold ic_decomposition in E.
  assert (SF : safeP (same_pattern A) (ic_factor ROps A)).
  { apply (safe_up _ (same_pattern A)); [apply same_pattern_refl|]. intros. apply (safe_ic_row ROps total_R A W); auto. }
  destruct (ic_factor ROps A) as [F|?|?|?]; cbn [bind] in E; try discriminate. cbn in SF.
  destruct SF as [_ [_ [M [_ [_ LD]]]]]. pose proof (wf_diag A W) as LA.
  assert (G : okP (fun M' : rcsr => length (diag M') = m A /\ forall k, (0 <= k < m A)%nat -> vget (diag M') k <> 0) (forM_down (m F) (ic_inv_row ROps) F)).
  { apply (okP_down rcsr (fun i M' => length (diag M') = m A /\ forall k, (i <= k < m A)%nat -> vget (diag M') k <> 0)).
    - split; [congruence|]. toR. rewrite M. intros; lia.
    - intros i s Hi [L1 H1]. apply inv_row_diag; auto. }
  destruct (G L E) as [_ H]. intros i Hi. apply H; lia.
Qed.
