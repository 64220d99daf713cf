(** Proofs about the COO matrix model. *)
From Coq Require Import String.
From Coq Require Import List Arith ZArith NArith Bool Lia Permutation.
From Verif Require Import Base AlgebraModel AlgebraSpec.
Import ListNotations.

(** ** Key packing *)
Lemma key_add : forall i j, is_u32 j -> key i j = (N.of_nat i * two32 + N.of_nat j)%N.
Proof.
  intros i j Hj; unfold key.
  assert (D : N.land (N.shiftl (N.of_nat i) 32) (N.of_nat j) = 0%N).
  { apply N.bits_inj; intros n. rewrite N.land_spec, N.bits_0.
    destruct (N.lt_ge_cases n 32) as [Hn|Hn].
    - rewrite N.shiftl_spec_low by auto. reflexivity.
    - destruct (N.eq_dec (N.of_nat j) 0) as [E|E].
      + rewrite E, N.bits_0, andb_false_r; auto.
      + rewrite (N.bits_above_log2 (N.of_nat j)), andb_false_r; auto.
        apply N.lt_le_trans with 32%N; auto. apply N.log2_lt_pow2; auto; lia. }
  rewrite <- N.lxor_lor by auto. rewrite <- N.add_nocarry_lxor by auto.
  rewrite N.shiftl_mul_pow2. reflexivity.
Qed.

Lemma krow_key : forall i j, is_u32 i -> is_u32 j -> krow (key i j) = i.
Proof.
  intros i j Hi Hj; unfold krow. rewrite key_add by auto.
  rewrite N.shiftr_div_pow2. unfold is_u32, two32 in *.
  rewrite N.div_add_l by discriminate. rewrite (N.div_small (N.of_nat j)) by auto.
  rewrite N.add_0_r, N.mod_small by auto. apply Nat2N.id.
Qed.

Lemma kcol_key : forall i j, is_u32 j -> kcol (key i j) = j.
Proof.
  intros i j Hj; unfold kcol. rewrite key_add by auto.
  change 4294967295%N with (N.ones 32). rewrite N.land_ones. unfold is_u32, two32 in *.
  rewrite N.add_comm, N.mod_add by discriminate. rewrite N.mod_small by auto. apply Nat2N.id.
Qed.

Lemma key_inj : forall i j i' j', is_u32 i -> is_u32 j -> is_u32 i' -> is_u32 j' ->
  key i j = key i' j' -> i = i' /\ j = j'.
Proof.
  intros i j i' j' Hi Hj Hi' Hj' E; split.
  - rewrite <- (krow_key i j), <- (krow_key i' j') by auto. congruence.
  - rewrite <- (kcol_key i j), <- (kcol_key i' j') by auto. congruence.
Qed.

Lemma key_lt : forall i j i' j', is_u32 i -> is_u32 j -> is_u32 i' -> is_u32 j' ->
  ((key i j < key i' j')%N <-> (i < i' \/ (i = i' /\ j < j'))).
Proof.
  intros. rewrite !key_add by auto. unfold is_u32, two32 in *.
  change (2^32)%N with 4294967296%N in *. split; intros.
  - destruct (lt_eq_lt_dec i i') as [[L|L]|L]; auto.
    + subst; right; split; auto; lia.
    + exfalso. assert ((N.of_nat i' + 1) * 4294967296 <= N.of_nat i * 4294967296)%N by (apply N.mul_le_mono_r; lia). lia.
  - destruct H3 as [L|[L1 L2]].
    + assert ((N.of_nat i + 1) * 4294967296 <= N.of_nat i' * 4294967296)%N by (apply N.mul_le_mono_r; lia). lia.
    + subst; lia.
Qed.

(** ** find/put *)
Section FP.
Context {V : Type}.
Implicit Types l : list (N * V).

Lemma find_key_in : forall l k v, find_key l k = Some v -> In (k, v) l.
Proof.
  induction l as [|[k' w] l IH]; simpl; intros k v H; [discriminate|].
  destruct (N.eqb_spec k' k); [inversion H; subst; auto|auto].
Qed.

Lemma find_key_none : forall l k, find_key l k = None <-> ~ In k (map fst l).
Proof.
  induction l as [|[k' w] l IH]; simpl; intros k; [tauto|].
  destruct (N.eqb_spec k' k).
  - subst; split; [discriminate|]. intros H; exfalso; auto.
  - rewrite IH; tauto.
Qed.

Lemma find_key_some_iff : forall l k v, NoDup (map fst l) -> (find_key l k = Some v <-> In (k, v) l).
Proof.
  induction l as [|[k' w] l IH]; simpl; intros k v H; [split; [discriminate|tauto]|].
  inversion H; subst. destruct (N.eqb_spec k' k).
  - subst; split; intros E.
    + inversion E; auto.
    + destruct E as [E|E]; [inversion E; auto|]. exfalso; apply H2. apply (in_map fst) in E; auto.
  - rewrite IH by auto. split; intros E; auto. destruct E as [E|E]; auto. inversion E; congruence.
Qed.

Lemma find_key_perm : forall l1 l2 k, Permutation l1 l2 -> NoDup (map fst l1) -> find_key l1 k = find_key l2 k.
Proof.
  intros l1 l2 k P ND.
  assert (ND2 : NoDup (map fst l2)) by (eapply Permutation_NoDup; [apply Permutation_map; eauto|auto]).
  destruct (find_key l1 k) eqn:E1, (find_key l2 k) eqn:E2; auto.
  - apply find_key_some_iff in E1; auto. apply find_key_some_iff in E2; auto.
    apply (Permutation_in _ P) in E1.
    apply find_key_some_iff in E1; auto. apply find_key_some_iff in E2; auto. congruence.
  - apply find_key_some_iff in E1; auto. apply (Permutation_in _ P) in E1.
    apply find_key_some_iff in E1; auto. congruence.
  - apply find_key_some_iff in E2; auto. apply (Permutation_in _ (Permutation_sym P)) in E2.
    apply find_key_some_iff in E2; auto. congruence.
Qed.

Lemma put_key_fst : forall l k v, map fst (put_key l k v) = map fst l.
Proof.
  induction l as [|[k' w] l IH]; simpl; intros k v; auto.
  destruct (N.eqb_spec k' k); simpl; auto. rewrite IH; auto.
Qed.

Lemma find_put_same : forall l k v, In k (map fst l) -> find_key (put_key l k v) k = Some v.
Proof.
  induction l as [|[k' w] l IH]; simpl; intros k v H; [tauto|].
  destruct (N.eqb_spec k' k); simpl.
  - subst; rewrite N.eqb_refl; auto.
  - destruct (N.eqb_spec k' k); [congruence|]. apply IH; tauto.
Qed.

Lemma find_put_other : forall l k k' v, k' <> k -> find_key (put_key l k v) k' = find_key l k'.
Proof.
  induction l as [|[k1 w] l IH]; simpl; intros k k' v H; auto.
  destruct (N.eqb_spec k1 k); simpl; subst.
  - destruct (N.eqb_spec k k'); [congruence|]. auto.
  - destruct (N.eqb_spec k1 k'); auto.
Qed.
End FP.

(** ** Well-formed COO matrices *)
Definition good_key (k : N) : Prop := exists i j, is_u32 i /\ is_u32 j /\ i <= j /\ k = key i j.
Definition wf_coo {V} (A : coo V) : Prop :=
  NoDup (map fst (elems A)) /\ Forall good_key (map fst (elems A)).

Lemma good_key_parts : forall k, good_key k ->
  is_u32 (krow k) /\ is_u32 (kcol k) /\ krow k <= kcol k /\ k = key (krow k) (kcol k).
Proof.
  intros k [i [j [Hi [Hj [L E]]]]]; subst. rewrite krow_key, kcol_key by auto. auto.
Qed.

Section Access.
Context {V : Type}.
Variable v0 : V.

Lemma coo_touch_spec : forall (A : coo V) i j,
  (j < i /\ coo_touch v0 A i j = Throw "MatCOOSymmetric: m > n not allowed") \/
  (i <= j /\ exists A', coo_touch v0 A i j = Ok A' /\ cm A' = cm A /\
     find_key (elems A') (key i j) = Some (match find_key (elems A) (key i j) with Some v => v | None => v0 end) /\
     (forall k, k <> key i j -> find_key (elems A') k = find_key (elems A) k) /\
     (NoDup (map fst (elems A)) -> NoDup (map fst (elems A'))) /\
     (forall k, In k (map fst (elems A')) <-> k = key i j \/ In k (map fst (elems A)))).
Proof.
  intros A i j; unfold coo_touch. destruct (Nat.ltb_spec j i) as [L|L]; [left; auto|right].
  split; auto. destruct (find_key (elems A) (key i j)) as [v|] eqn:E.
  - exists A; repeat split; auto. intros [H|H]; auto.
    subst. apply find_key_in in E. apply (in_map fst) in E; auto.
  - eexists; split; [reflexivity|]. cbn [elems cm]. repeat split; auto.
    + cbn. rewrite N.eqb_refl; auto.
    + intros k Hk; cbn. destruct (N.eqb_spec (key i j) k); [congruence|auto].
    + intros ND; cbn. constructor; auto. apply find_key_none; auto.
    + cbn. intuition auto.
    + cbn. intuition auto.
Qed.

Lemma coo_read_spec : forall (A : coo V) i j,
  (j < i /\ coo_read v0 A i j = Throw "MatCOOSymmetric: m > n not allowed") \/
  (i <= j /\ exists A', coo_read v0 A i j = Ok (A', match find_key (elems A) (key i j) with Some v => v | None => v0 end) /\
     cm A' = cm A /\
     find_key (elems A') (key i j) = Some (match find_key (elems A) (key i j) with Some v => v | None => v0 end) /\
     (forall k, k <> key i j -> find_key (elems A') k = find_key (elems A) k) /\
     (NoDup (map fst (elems A)) -> NoDup (map fst (elems A'))) /\
     (forall k, In k (map fst (elems A')) <-> k = key i j \/ In k (map fst (elems A)))).
Proof.
  intros A i j; unfold coo_read.
  destruct (coo_touch_spec A i j) as [[L E]|[L [A' [E [M [F [O [ND I]]]]]]]].
  - left; rewrite E; auto.
  - right; split; auto. exists A'. rewrite E; cbn. rewrite F. auto 10.
Qed.

Lemma coo_modify_spec : forall (A : coo V) i j f,
  (j < i /\ coo_modify v0 A i j f = Throw "MatCOOSymmetric: m > n not allowed") \/
  (i <= j /\ exists A', coo_modify v0 A i j f = Ok A' /\ cm A' = cm A /\
     find_key (elems A') (key i j) = Some (f (match find_key (elems A) (key i j) with Some v => v | None => v0 end)) /\
     (forall k, k <> key i j -> find_key (elems A') k = find_key (elems A) k) /\
     (NoDup (map fst (elems A)) -> NoDup (map fst (elems A'))) /\
     (forall k, In k (map fst (elems A')) <-> k = key i j \/ In k (map fst (elems A)))).
Proof.
  intros A i j f; unfold coo_modify.
  destruct (coo_read_spec A i j) as [[L E]|[L [A' [E [M [F [O [ND I]]]]]]]].
  - left; rewrite E; auto.
  - right; split; auto. rewrite E; cbn [bind]. eexists; split; [reflexivity|].
    cbn [elems cm]. split; [auto|]. split; [|split; [|split]].
    + rewrite find_put_same; auto. apply I; auto.
    + intros k Hk. rewrite find_put_other by auto. auto.
    + rewrite put_key_fst; auto.
    + rewrite put_key_fst; auto.
Qed.
End Access.

(** ** Histories of accesses against an abstract map on positions (property C01).
    The abstract object knows nothing about keys or lists. *)
Section History.
Context {V : Type}.
Variable v0 : V.

Notation cstep := (cstep v0).
Notation crun := (crun v0).
Notation spec := (spec V).

Definition absr (A : coo V) (s : spec) : Prop :=
  forall i j, is_u32 i -> is_u32 j -> i <= j ->
    match find_key (elems A) (key i j) with Some v => v | None => v0 end = s i j.

Lemma wf_of_spec : forall (A A' : coo V) i j, is_u32 i -> is_u32 j -> i <= j -> wf_coo A ->
  (NoDup (map fst (elems A)) -> NoDup (map fst (elems A'))) ->
  (forall k, In k (map fst (elems A')) <-> k = key i j \/ In k (map fst (elems A))) -> wf_coo A'.
Proof.
  intros A A' i j Hi Hj L [ND G] H1 H2; split; auto.
  rewrite Forall_forall in *. intros k Hk. apply H2 in Hk. destruct Hk as [->|Hk]; auto.
  exists i, j; auto.
Qed.

Lemma wf_perm : forall A A' : coo V, Permutation (elems A) (elems A') -> wf_coo A -> wf_coo A'.
Proof.
  intros A A' P [ND G]; split.
  - eapply Permutation_NoDup; [apply Permutation_map; eauto|auto].
  - rewrite Forall_forall in *. intros k Hk. apply G.
    eapply Permutation_in; [apply Permutation_map, Permutation_sym; eauto|auto].
Qed.

Lemma cstep_refines : forall A op A' out s,
  wf_coo A -> op_u32 op -> absr A s -> cstep A op A' out ->
  wf_coo A' /\ cm A' = cm A /\ out = snd (spec_step s op) /\ absr A' (fst (spec_step s op)).
Proof.
  intros A op A' out s W U HA St; destruct St; simpl in U; destruct U as [Ui Uj]; simpl.
  - destruct (coo_read_spec v0 A i j) as [[L E]|[L [A' [E [M [F [O [ND I]]]]]]]]; [congruence|].
    rewrite H in E; inversion E; subst A' v. apply Nat.leb_le in L as L'; rewrite L'; simpl.
    assert (W1 : wf_coo A1) by (apply (wf_of_spec A A1 i j); auto).
    split; [eapply wf_perm; eauto|split; [congruence|split]].
    + rewrite HA by auto; auto.
    + intros a b Ha Hb Lab. rewrite <- (find_key_perm (elems A1)); auto; [|apply W1].
      destruct (N.eq_dec (key a b) (key i j)) as [Ek|Ek].
      * rewrite Ek, F. apply key_inj in Ek; auto. destruct Ek; subst; auto.
      * rewrite O by auto. auto.
  - destruct (coo_read_spec v0 A i j) as [[L E]|[L [A' [E _]]]]; [|congruence].
    apply Nat.leb_gt in L; rewrite L; simpl. auto.
  - destruct (coo_modify_spec v0 A i j (fun _ => v)) as [[L E]|[L [A' [E [M [F [O [ND I]]]]]]]]; [congruence|].
    rewrite H in E; inversion E; subst A'. apply Nat.leb_le in L as L'; rewrite L'; simpl.
    assert (W1 : wf_coo A1) by (apply (wf_of_spec A A1 i j); auto).
    split; [eapply wf_perm; eauto|split; [congruence|split; [reflexivity|]]].
    + intros a b Ha Hb Lab. rewrite <- (find_key_perm (elems A1)); auto; [|apply W1].
      destruct (N.eq_dec (key a b) (key i j)) as [Ek|Ek].
      * rewrite Ek, F. apply key_inj in Ek; auto. destruct Ek; subst. rewrite !Nat.eqb_refl; auto.
      * rewrite O by auto.
        destruct (Nat.eqb_spec a i), (Nat.eqb_spec b j); simpl; auto. subst; congruence.
  - destruct (coo_modify_spec v0 A i j (fun _ => v)) as [[L E]|[L [A' [E _]]]]; [|congruence].
    apply Nat.leb_gt in L; rewrite L; simpl. auto.
Qed.

Lemma crun_refines : forall ops A A' outs s,
  wf_coo A -> Forall op_u32 ops -> absr A s -> crun A ops A' outs -> outs = spec_run s ops /\ wf_coo A' /\ cm A' = cm A.
Proof.
  induction ops as [|op ops IH]; intros A A' outs s W U HA R; inversion R; subst; simpl; auto.
  inversion U; subst.
  destruct (cstep_refines _ _ _ _ s W H1 HA H2) as [W1 [M [O HA1]]].
  destruct (IH _ _ _ (fst (spec_step s op)) W1 H3 HA1 H5) as [E [W2 M2]].
  destruct (spec_step s op) as [s' out']; simpl in *. subst. split; auto. split; auto. congruence.
Qed.

Lemma coo_history : forall size ops A outs,
  Forall op_u32 ops -> crun (coo_new V size) ops A outs ->
  outs = spec_run (fun _ _ => v0) ops /\ cm A = size.
Proof.
  intros size ops A outs U R.
  destruct (crun_refines ops (coo_new V size) A outs (fun _ _ => v0)) as [E [_ M]]; auto.
  - split; simpl; constructor.
  - intros i j _ _ _; simpl; auto.
Qed.

(** every access sequence has a run: accesses never get stuck or hit undefined behaviour *)
Lemma coo_progress : forall A op, wf_coo A -> op_u32 op -> exists A' out, cstep A op A' out.
Proof.
  intros A [i j|i j v] W [Ui Uj].
  - destruct (coo_read_spec v0 A i j) as [[L E]|[L [A' [E H]]]].
    + exists A, OThrown; econstructor; eauto.
    + exists A'; eexists; eapply cs_read; eauto.
  - destruct (coo_modify_spec v0 A i j (fun _ => v)) as [[L E]|[L [A' [E H]]]].
    + exists A, OThrown; econstructor; eauto.
    + exists A'; eexists; eapply cs_write; eauto.
Qed.

Lemma coo_history_total : forall ops size, Forall op_u32 ops -> exists A outs, crun (coo_new V size) ops A outs.
Proof.
  intros ops size U.
  assert (G : forall ops A, wf_coo A -> Forall op_u32 ops -> exists A' outs, crun A ops A' outs).
  { induction ops0 as [|op ops0 IH]; intros A W U0.
    - exists A, []; constructor.
    - inversion U0; subst. destruct (coo_progress A op W H1) as [A1 [out St]].
      assert (W1 : wf_coo A1).
      { destruct (cstep_refines A op A1 out (fun i j => match find_key (elems A) (key i j) with Some v => v | None => v0 end) W H1) as [W1 _]; auto.
        intros a b _ _ _; auto. }
      destruct (IH A1 W1 H2) as [A2 [outs R]].
      exists A2, (out :: outs); econstructor; eauto. }
  apply G; auto. split; simpl; constructor.
Qed.
End History.
