(** Ownership of mesh buffers. *)
From Coq Require Import String.
From Coq Require Import List Arith Lia Bool Permutation.
From Verif Require Import Base OwnModel OwnSpec.
Import ListNotations.

Definition somes (p : list ptr) : list nat := flat_map (fun x => match x with Some b => [b] | None => [] end) p.
Definition owned (l : list (nat * list ptr)) : list nat := flat_map (fun yp => somes (snd yp)) l.

Lemma NoDup_app_intro' : forall (a b : list nat), NoDup a -> NoDup b -> (forall x, In x a -> ~ In x b) -> NoDup (a ++ b).
Proof.
  induction a as [|x a IH]; intros b N1 N2 D; auto. inversion N1; subst. cbn. constructor; [|apply IH; auto; intros y Y; apply D; right; auto].
  intros Q. apply in_app_or in Q. destruct Q as [Q|Q]; auto. apply (D x); auto. left; auto.
Qed.
Lemma NoDup_app_r' : forall (a b : list nat), NoDup (a ++ b) -> NoDup b.
Proof. induction a as [|x a IH]; intros b N; auto. inversion N; subst. auto. Qed.
Lemma NoDup_app_disj' : forall (a b : list nat) x, NoDup (a ++ b) -> In x a -> In x b -> False.
Proof.
  induction a as [|y a IH]; intros b x N I J; auto. inversion N as [|? ? N1 N2]; subst. destruct I as [->|I]; [apply N1, in_or_app; auto|eapply IH; eauto].
Qed.
Lemma mem_in : forall b l, mem b l = true <-> In b l.
Proof. intros b l. unfold mem. rewrite existsb_exists. split; [intros [x [I E]]; apply Nat.eqb_eq in E; subst; auto|intros I; exists b; split; auto; apply Nat.eqb_refl]. Qed.
Lemma somes_null : somes null_slots = [].
Proof. reflexivity. Qed.
Lemma drop_absent : forall l x, lookup x l = None -> drop x l = l.
Proof.
  induction l as [|[y p] l IH]; intros x H; auto. cbn in *. destruct (Nat.eqb x y) eqn:E; [discriminate|]. cbn. f_equal. apply IH; auto.
Qed.
Lemma lookup_none : forall l x, lookup x l = None <-> ~ In x (map fst l).
Proof.
  induction l as [|[y p] l IH]; intros x; cbn; [tauto|]. destruct (Nat.eqb x y) eqn:E.
  - apply Nat.eqb_eq in E. subst. split; [discriminate|intros H; exfalso; apply H; auto].
  - apply Nat.eqb_neq in E. rewrite IH. split; [intros H [Q|Q]; [congruence|auto]|intros H Q; apply H; auto].
Qed.
Lemma drop_names : forall l x, NoDup (map fst l) -> NoDup (map fst (drop x l)) /\ ~ In x (map fst (drop x l)).
Proof.
  induction l as [|[y p] l IH]; intros x N; cbn in *; [split; [constructor|tauto]|]. inversion N as [|? ? N1 N2]; subst. destruct (IH x N2) as [I1 I2].
  destruct (Nat.eqb x y) eqn:E; cbn; auto. apply Nat.eqb_neq in E. split; [|intros [Q|Q]; [congruence|auto]].
  constructor; auto. intros Q. apply N1. clear -Q. apply in_map_iff in Q. destruct Q as [z [Z1 Z2]]. apply filter_In in Z2. apply in_map_iff. exists z. tauto.
Qed.
Lemma drop_in : forall l x y p, In (y, p) (drop x l) -> In (y, p) l /\ y <> x.
Proof.
  intros l x y p H. apply filter_In in H. destruct H as [H1 H2]. split; auto. cbn in H2. apply negb_true_iff, Nat.eqb_neq in H2. auto.
Qed.
Lemma lookup_in : forall l x p, lookup x l = Some p -> In (x, p) l.
Proof.
  induction l as [|[y q] l IH]; intros x p H; cbn in *; [discriminate|]. destruct (Nat.eqb x y) eqn:E; [apply Nat.eqb_eq in E; injection H as <-; subst; auto|right; auto].
Qed.
Lemma owned_lookup : forall l x p, NoDup (map fst l) -> lookup x l = Some p -> Permutation (owned l) (somes p ++ owned (drop x l)).
Proof.
  induction l as [|[y q] l IH]; intros x p N H; cbn in *; [discriminate|]. inversion N as [|? ? N1 N2]; subst. destruct (Nat.eqb x y) eqn:E; cbn.
  - apply Nat.eqb_eq in E. injection H as <-. subst. fold (drop y l). rewrite drop_absent; auto. apply lookup_none; auto.
  - fold (drop x l). specialize (IH x p N2 H). fold (owned l). fold (owned (drop x l)). rewrite IH. rewrite !app_assoc. apply Permutation_app_tail, Permutation_app_comm.
Qed.

(** ** new buffers *)
Lemma allocate_spec : forall k out next n l, allocate next out k = (n, l) -> n = next + length (somes l) /\ somes l = seq next (length (somes l)).
Proof.
  induction k as [|k IH]; intros out next n l H; cbn [allocate] in H; [injection H as <- <-; cbn; split; [lia|auto]|].
  set (b := hd false out && negb (Nat.eqb (slots - S k) 8)) in H. destruct (allocate (if b then S next else next) (List.tl out) k) as [n1 l1] eqn:E. apply IH in E. destruct E as [E1 E2]. injection H as <- <-.
  destruct b; cbn [somes flat_map]; fold (somes l1); [|cbn [app]; auto]. cbn [app length seq]. split; [lia|]. f_equal. auto.
Qed.
Lemma free_all_ok : forall p fr, NoDup (somes p ++ fr) -> free_all p fr = Ok (rev (somes p) ++ fr).
Proof.
  induction p as [|[b|] p IH]; intros fr N; [reflexivity| |cbn in *; apply IH; auto].
  change (NoDup (b :: somes p ++ fr)) in N. change (somes (Some b :: p)) with (b :: somes p). cbn [free_all]. inversion N as [|? ? N1 N2]; subst. destruct (mem b fr) eqn:E; [exfalso; apply N1, in_or_app; right; apply mem_in; auto|].
  rewrite IH; [cbn [app rev]; rewrite <- app_assoc; auto|]. apply (Permutation_NoDup (Permutation_middle _ _ _)). constructor; auto.
Qed.

(** ** invariant; M: the names triangulated so far *)
Record inv (M : list nat) (h : heap) : Prop :=
  { i_names : NoDup (map fst (objects h));
    i_null : forall x p, In (x, p) (objects h) -> ~ In x M -> p = null_slots;
    i_nodup : NoDup (owned (objects h) ++ freed h);
    i_lt : forall b, In b (owned (objects h) ++ freed h) -> b < allocated h }.
Definition covered (h : heap) : Prop := forall b, b < allocated h -> In b (owned (objects h) ++ freed h).

Definition allowed (M : list nat) (c : op) : Prop :=
  match c with Copy _ x => ~ In x M | Assign y x => ~ In x M /\ ~ In y M | _ => True end.
Definition once_more (M : list nat) (c : op) : Prop := match c with Triangulate x _ => ~ In x M | _ => True end.
Definition after (M : list nat) (c : op) : list nat := match c with Triangulate x _ => x :: M | _ => M end.
Definition unsafe {X} (r : res X) : Prop := r = UB "double free" \/ r = UB "use after free".

Lemma names_bind : forall l x p, NoDup (map fst l) -> NoDup (map fst (bind_to x p l)).
Proof. intros l x p N. cbn. destruct (drop_names l x N). constructor; auto. Qed.

Lemma exec_inv : forall M c h, inv M h -> allowed M c ->
  ~ unsafe (exec c h) /\ forall h', exec c h = Ok h' -> inv (after M c) h' /\ (covered h -> once_more M c -> covered h').
Proof.
  intros M c h [IN IU ID IL] A. assert (U1 : forall X (a : X), ~ unsafe (Ok a)) by (intros X a [Q|Q]; discriminate).
  assert (U2 : forall X s, ~ unsafe (@Throw X s)) by (intros X s [Q|Q]; discriminate).
  destruct c as [x|y x|y x|x out|x k|x]; cbn [exec allowed after once_more] in *.
  - destruct (lookup x (objects h)) as [p|] eqn:L; [split; auto; discriminate|]. split; auto. intros h' H. injection H as <-.
    assert (E : owned (bind_to x null_slots (objects h)) = owned (objects h)) by (unfold bind_to; rewrite drop_absent by auto; reflexivity).
    unfold covered. split; [constructor|]; cbn [allocated freed objects]; rewrite ?E; auto; [apply names_bind; auto|].
    intros z p [Q|Q] Z; [injection Q as <- <-; auto|]. apply drop_in in Q. apply (IU z p); tauto.
  - destruct (lookup y (objects h)) as [q|] eqn:L; [split; auto; discriminate|]. destruct (lookup x (objects h)) as [p|] eqn:L2; [|split; auto; discriminate].
    split; auto. intros h' H. injection H as <-. assert (p = null_slots) by (apply (IU x); auto; apply lookup_in; auto). subst p.
    assert (E : owned (bind_to y null_slots (objects h)) = owned (objects h)) by (unfold bind_to; rewrite drop_absent by auto; reflexivity).
    unfold covered. split; [constructor|]; cbn [allocated freed objects]; rewrite ?E; auto; [apply names_bind; auto|].
    intros z p [Q|Q] Z; [injection Q as <- <-; auto|]. apply drop_in in Q. apply (IU z p); tauto.
  - destruct (lookup y (objects h)) as [q|] eqn:L; [|split; auto; discriminate]. destruct (lookup x (objects h)) as [p|] eqn:L2; [|split; auto; discriminate].
    destruct A as [A1 A2]. split; auto. intros h' H. injection H as <-. assert (p = null_slots) by (apply (IU x); auto; apply lookup_in; auto).
    assert (q = null_slots) by (apply (IU y); auto; apply lookup_in; auto). subst p q.
    assert (E : Permutation (owned (objects h)) (owned (bind_to y null_slots (objects h)))) by (apply (owned_lookup _ _ _ IN L)).
    unfold covered. split; [constructor|]; cbn [allocated freed objects]; auto.
    + apply names_bind; auto.
    + intros z p [Q|Q] Z; [injection Q as <- <-; auto|]. apply drop_in in Q. apply (IU z p); tauto.
    + apply (Permutation_NoDup (Permutation_app_tail _ E)); auto.
    + intros b B. apply IL. apply (Permutation_in _ (Permutation_sym (Permutation_app_tail _ E))); auto.
    + intros C _ b B. apply (Permutation_in _ (Permutation_app_tail _ E)); auto.
  - destruct (lookup x (objects h)) as [p|] eqn:L; [|split; auto; discriminate]. destruct (allocate (allocated h) out slots) as [n l] eqn:EA. apply allocate_spec in EA. destruct EA as [E1 E2].
    split; auto. intros h' H. injection H as <-. pose proof (owned_lookup _ _ _ IN L) as E. pose proof (Permutation_app_tail (freed h) E) as E'.
    assert (D : forall b, In b (owned (drop x (objects h)) ++ freed h) -> In b (owned (objects h) ++ freed h)).
    { intros b B. apply (Permutation_in _ (Permutation_sym E')). rewrite <- app_assoc. apply in_or_app. right; auto. }
    unfold covered. split; [constructor|]; cbn [allocated freed objects bind_to owned flat_map snd]; fold (owned (drop x (objects h))).
    + apply (names_bind (objects h)); auto.
    + intros z q [Q|Q] Z; [injection Q as <- <-; exfalso; apply Z; left; auto|]. apply drop_in in Q. apply (IU z q); [tauto|intros W; apply Z; right; auto].
    + rewrite <- app_assoc. apply NoDup_app_intro'.
      * rewrite E2. apply seq_NoDup.
      * apply (Permutation_NoDup E') in ID. rewrite <- app_assoc in ID. apply NoDup_app_r' in ID. auto.
      * intros b B1 B2. rewrite E2 in B1. apply in_seq in B1. apply D, IL in B2. lia.
    + intros b B. rewrite <- app_assoc in B. apply in_app_or in B. destruct B as [B|B]; [rewrite E2 in B; apply in_seq in B; lia|apply D, IL in B; lia].
    + intros C O b B. rewrite <- app_assoc. assert (p = null_slots) by (apply (IU x); auto; apply lookup_in; auto). subst p. cbn [app somes] in E'.
      destruct (Nat.lt_ge_cases b (allocated h)) as [Z|Z]; apply in_or_app; [right; apply (Permutation_in _ E'); apply C; auto|left; rewrite E2; apply in_seq; lia].
  - destruct (lookup x (objects h)) as [p|] eqn:L; [|split; auto; discriminate]. destruct (get p k) as [b|s|s|s] eqn:G; cbn [bind].
    + destruct b as [b|]; [|split; [intros [Q|Q]; discriminate|discriminate]]. destruct (mem b (freed h)) eqn:E.
      * exfalso. apply mem_in in E. pose proof (Permutation_NoDup (Permutation_app_tail (freed h) (owned_lookup _ _ _ IN L)) ID) as N. rewrite <- app_assoc in N.
        assert (B : In b (somes p)). { unfold get in G. destruct (nth_error p k) as [v|] eqn:NE; [|discriminate]. injection G as ->. apply nth_error_In in NE. apply in_flat_map. exists (Some b). split; auto. left; auto. }
        eapply NoDup_app_disj'; eauto. apply in_or_app; right; auto.
      * split; auto. intros h' H. injection H as <-. split; auto. constructor; auto.
    + split; [auto|discriminate].
    + unfold get in G. destruct (nth_error p k); [discriminate|]. injection G as <-. split; [intros [Q|Q]; discriminate|discriminate].
    + unfold get in G. destruct (nth_error p k); discriminate.
  - destruct (lookup x (objects h)) as [p|] eqn:L; [|split; auto; discriminate]. pose proof (owned_lookup _ _ _ IN L) as E. pose proof (Permutation_app_tail (freed h) E) as E'.
    pose proof (Permutation_NoDup E' ID) as N. assert (P2 : Permutation ((somes p ++ owned (drop x (objects h))) ++ freed h) (owned (drop x (objects h)) ++ rev (somes p) ++ freed h)).
    { rewrite !app_assoc. apply Permutation_app_tail. rewrite Permutation_app_comm. apply Permutation_app_head, Permutation_rev. }
    rewrite free_all_ok; [cbn [bind]|].
    2:{ assert (N3 := Permutation_NoDup P2 N). apply NoDup_app_r' in N3. apply (Permutation_NoDup (l := rev (somes p) ++ freed h)); auto. apply Permutation_app_tail. symmetry. apply Permutation_rev. }
    split; auto. intros h' H. injection H as <-. pose proof (Permutation_trans E' P2) as P3. unfold covered. split; [constructor|]; cbn [allocated freed objects].
    + apply drop_names; auto.
    + intros z q Q Z. apply drop_in in Q. apply (IU z q); tauto.
    + apply (Permutation_NoDup P3); auto.
    + intros b B. apply IL. apply (Permutation_in _ (Permutation_sym P3)); auto.
    + intros C _ b B. apply (Permutation_in _ P3); auto.
Qed.

(** ** histories *)
Fixpoint allowed_all (M : list nat) (cs : list op) : Prop := match cs with [] => True | c :: cs' => allowed M c /\ allowed_all (after M c) cs' end.
Fixpoint once_all (M : list nat) (cs : list op) : Prop := match cs with [] => True | c :: cs' => once_more M c /\ once_all (after M c) cs' end.
Lemma exec_all_inv : forall cs M h, inv M h -> allowed_all M cs ->
  ~ unsafe (exec_all cs h) /\ forall h', exec_all cs h = Ok h' -> (exists M', inv M' h') /\ (covered h -> once_all M cs -> covered h').
Proof.
  induction cs as [|c cs IH]; intros M h I A; unfold exec_all in *; cbn [forM_list] in *.
  - split; [intros [Q|Q]; discriminate|]. intros h' H. injection H as <-. split; [exists M; auto|auto].
  - destruct A as [A1 A2]. destruct (exec_inv M c h I A1) as [S1 S2]. destruct (exec c h) as [h1|s|s|s] eqn:E; cbn [bind].
    + destruct (S2 h1 eq_refl) as [I1 C1]. destruct (IH _ _ I1 A2) as [S3 S4]. split; auto. intros h' H. destruct (S4 h' H) as [I2 C2]. split; auto. intros C [O1 O2]. auto.
    + split; [intros [Q|Q]; discriminate|discriminate].
    + split; [|discriminate]. intros Q. apply S1. destruct Q as [Q|Q]; injection Q as ->; [left|right]; auto.
    + split; [intros [Q|Q]; discriminate|discriminate].
Qed.
Lemma inv0 : inv [] heap0.
Proof. constructor; cbn; [constructor|tauto|constructor|tauto]. Qed.

Lemma allowed_of : forall cs M, (forall x, In x M -> forall y, ~ In (Copy y x) cs /\ ~ In (Assign y x) cs /\ ~ In (Assign x y) cs) -> copies_only_empty_meshes cs -> allowed_all M cs.
Proof.
  induction cs as [|c cs IH]; intros M H C; cbn; auto. split.
  - destruct c as [x|y x|y x|x out|x k|x]; cbn; auto.
    + intros I. destruct (H x I y) as [Q _]. apply Q. left; auto.
    + split; intros I; [destruct (H x I y) as [_ [Q _]]|destruct (H y I x) as [_ [_ Q]]]; apply Q; left; auto.
  - apply IH.
    + intros x I y. assert (G : In x M -> ~ In (Copy y x) cs /\ ~ In (Assign y x) cs /\ ~ In (Assign x y) cs) by (intros J; destruct (H x J y) as [Q1 [Q2 Q3]]; repeat split; intros Z; [apply Q1|apply Q2|apply Q3]; right; auto).
      destruct c as [z|y' z|y' z|z out|z k|z]; cbn in I; auto. destruct I as [->|I]; auto. apply (C [] x out cs eq_refl y).
    + intros b x out a E y. apply (C (c :: b) x out a). cbn. f_equal; auto.
Qed.
Lemma once_of : forall cs M, (forall x, In x M -> forall out, ~ In (Triangulate x out) cs) -> triangulates_once cs -> once_all M cs.
Proof.
  induction cs as [|c cs IH]; intros M H C; cbn; auto. split.
  - destruct c as [x|y x|y x|x out|x k|x]; cbn; auto. intros I. apply (H x I out). left; auto.
  - apply IH.
    + intros x I out Q. destruct c as [z|y' z|y' z|z out'|z k|z]; cbn in I; try (apply (H x I out); right; auto; fail).
      destruct I as [->|I]; [|apply (H x I out); right; auto]. apply (C [] x out' cs eq_refl out Q).
    + intros b x out a E out'. apply (C (c :: b) x out a). cbn. f_equal; auto.
Qed.

Lemma own_safe : forall cs, copies_only_empty_meshes cs -> exec_all cs heap0 <> UB "double free" /\ exec_all cs heap0 <> UB "use after free".
Proof.
  intros cs C. destruct (exec_all_inv cs [] heap0 inv0) as [S _]; [apply allowed_of; auto; intros x []|]. split; intros Q; apply S; [left|right]; auto.
Qed.
Lemma own_at_most_once : forall cs h, copies_only_empty_meshes cs -> exec_all cs heap0 = Ok h -> NoDup (freed h) /\ forall b, In b (freed h) -> b < allocated h.
Proof.
  intros cs h C E. destruct (exec_all_inv cs [] heap0 inv0) as [_ S]; [apply allowed_of; auto; intros x []|]. destruct (S h E) as [[M [_ _ ID IL]] _].
  split; [apply NoDup_app_r' in ID; auto|]. intros b B. apply IL, in_or_app; auto.
Qed.
Lemma own_all_freed : forall cs h, copies_only_empty_meshes cs -> triangulates_once cs -> exec_all cs heap0 = Ok h -> objects h = [] ->
  Permutation (freed h) (seq 0 (allocated h)).
Proof.
  intros cs h C T E O. destruct (exec_all_inv cs [] heap0 inv0) as [_ S]; [apply allowed_of; auto; intros x []|]. destruct (S h E) as [[M [_ _ ID IL]] CV].
  rewrite O in *. cbn in ID, IL. apply NoDup_Permutation; auto; [apply seq_NoDup|]. intros b. rewrite in_seq. split; intros B; [split; [lia|apply IL; auto]|].
  assert (Z : covered h). { apply CV; [intros b' B'; cbn in B'; lia|apply once_of; auto; intros x []]. } specialize (Z b). rewrite O in Z. apply Z. lia.
Qed.

(** ** copies of a meshed object *)
Lemma own_double_free : forall h x y p b, lookup x (objects h) = Some p -> lookup y (objects h) = None -> In (Some b) p ->
  (forall h', exec (Destroy x) h = Ok h' -> exec (Destroy y) (mkHeap (allocated h') (freed h') ((y, p) :: objects h')) = UB "double free").
Proof.
  intros h x y p b L1 L2 I h' E. cbn [exec] in E. rewrite L1 in E. destruct (free_all p (freed h)) as [fr|s|s|s] eqn:F; cbn [bind] in E; try discriminate. injection E as <-.
  cbn [allocated freed objects exec lookup]. rewrite Nat.eqb_refl.
  assert (G : forall p fr fr', free_all p fr = Ok fr' -> forall b, In (Some b) p \/ In b fr -> In b fr').
  { clear. induction p as [|[c|] p IH]; intros fr fr' H b B; cbn [free_all] in H.
    - injection H as <-. destruct B as [[]|B]; auto.
    - destruct (mem c fr); [discriminate|]. apply (IH _ _ H). destruct B as [[B|B]|B]; [injection B as ->; right; left; auto|left; auto|right; right; auto].
    - apply (IH _ _ H). destruct B as [[B|B]|B]; [discriminate|left; auto|right; auto]. }
  assert (G2 : forall p fr b, In (Some b) p -> In b fr -> free_all p fr = UB "double free").
  { clear. induction p as [|[c|] p IH]; intros fr b I J; cbn [free_all]; [destruct I| |].
    - destruct (mem c fr) eqn:E; auto. destruct I as [I|I]; [injection I as ->; apply mem_in in J; congruence|]. apply (IH _ b); auto. right; auto.
    - destruct I as [I|I]; [discriminate|]. apply (IH _ b); auto. }
  rewrite (G2 p fr b); auto. eapply G; eauto.
Qed.
Lemma own_copy_destroy : forall h x y p b, x <> y -> lookup x (objects h) = Some p -> lookup y (objects h) = None -> In (Some b) p ->
  exec_all [Copy y x; Destroy x; Destroy y] h = UB "double free".
Proof.
  intros h x y p b N L1 L2 I. unfold exec_all. cbn [forM_list]. cbn [exec]. rewrite L2, L1. cbn [bind objects].
  assert (L3 : lookup x (bind_to y p (objects h)) = Some p).
  { unfold bind_to. cbn [lookup]. destruct (Nat.eqb x y) eqn:E; [apply Nat.eqb_eq in E; congruence|]. rewrite drop_absent; auto. }
  rewrite L3. cbn [freed allocated]. destruct (free_all p (freed h)) as [fr|s|s|s] eqn:F; cbn [bind].
  - pose proof (own_double_free h x y p b L1 L2 I) as D. cbn [exec] in D. rewrite L1, F in D. cbn [bind] in D. specialize (D _ eq_refl). cbn [allocated freed objects lookup] in D. rewrite Nat.eqb_refl in D.
    cbn [objects freed]. assert (L4 : lookup y (drop x (bind_to y p (objects h))) = Some p).
    { unfold bind_to, drop. cbn [filter fst]. destruct (Nat.eqb x y) eqn:E; [apply Nat.eqb_eq in E; congruence|]. cbn [negb lookup]. rewrite Nat.eqb_refl. auto. }
    rewrite L4. destruct (free_all p fr) as [fr2|s|s|s]; cbn [bind] in *; try discriminate. injection D as ->. auto.
  - exfalso. clear -F. revert F. generalize (freed h). induction p as [|[c|] p IH]; intros l F; cbn in F; try discriminate; [destruct (mem c l); [discriminate|]|]; eapply IH; eauto.
  - assert (s = "double free"%string). { clear -F. revert F. generalize (freed h). induction p as [|[c|] p IH]; intros l F; cbn in F; try discriminate; [destruct (mem c l); [injection F as <-; auto|]|]; eapply IH; eauto. }
    subst. auto.
  - exfalso. clear -F. revert F. generalize (freed h). induction p as [|[c|] p IH]; intros l F; cbn in F; try discriminate; [destruct (mem c l); [discriminate|]|]; eapply IH; eauto.
Qed.

(** ** the constructors of the simulations *)
Lemma no_triangulation : forall cs, (forall x out, ~ In (Triangulate x out) cs) -> copies_only_empty_meshes cs /\ triangulates_once cs.
Proof.
  intros cs H. split; intros b x out a E; exfalso; apply (H x out); rewrite E; apply in_or_app; right; left; auto.
Qed.
