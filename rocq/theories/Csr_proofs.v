(** Proofs about the COO -> CSR conversion and CSR row access. *)
From Coq Require Import String.
From Coq Require Import List Arith ZArith NArith Bool Lia Permutation Sorted.
From Verif Require Import Base AlgebraModel Coo_proofs.
Import ListNotations.

(** ** Sorting by key *)
Section Sort.
Context {V : Type}.
Definition klt (a b : N * V) : Prop := (fst a < fst b)%N.

Lemma insert_key_perm : forall (x : N * V) l, Permutation (insert_key x l) (x :: l).
Proof.
  induction l as [|y l IH]; simpl; auto.
  destruct (N.ltb (fst x) (fst y)); auto.
  rewrite IH. apply perm_swap.
Qed.

Lemma sort_keys_perm : forall l : list (N * V), Permutation (sort_keys l) l.
Proof. induction l as [|x l IH]; simpl; auto. rewrite insert_key_perm, IH; auto. Qed.

Lemma insert_key_sorted : forall (x : N * V) l,
  StronglySorted klt l -> ~ In (fst x) (map fst l) -> StronglySorted klt (insert_key x l).
Proof.
  induction l as [|y l IH]; simpl; intros S H.
  - repeat constructor.
  - inversion S; subst. destruct (N.ltb_spec (fst x) (fst y)) as [L|L].
    + constructor; auto. constructor; auto.
      rewrite Forall_forall in *. intros z Hz. specialize (H3 z Hz). unfold klt in *; lia.
    + constructor; [apply IH; auto|].
      rewrite Forall_forall in *. intros z Hz.
      apply (Permutation_in _ (insert_key_perm x l)) in Hz. destruct Hz as [<-|Hz]; auto.
      unfold klt. assert (fst x <> fst y) by (intros E; apply H; auto). lia.
Qed.

Lemma sort_keys_sorted : forall l : list (N * V), NoDup (map fst l) -> StronglySorted klt (sort_keys l).
Proof.
  induction l as [|x l IH]; simpl; intros H; [constructor|].
  inversion H; subst. apply insert_key_sorted; auto.
  intros I; apply H2. eapply Permutation_in; [apply Permutation_map, sort_keys_perm|auto].
Qed.

Lemma sorted_unique : forall l1 l2 : list (N * V),
  StronglySorted klt l1 -> StronglySorted klt l2 -> Permutation l1 l2 -> l1 = l2.
Proof.
  induction l1 as [|x l1 IH]; intros l2 S1 S2 P.
  - apply Permutation_nil in P; auto.
  - destruct l2 as [|y l2]; [apply Permutation_sym, Permutation_nil in P; discriminate|].
    inversion S1; inversion S2; subst.
    assert (x = y).
    { assert (Ix : In x (y :: l2)) by (eapply Permutation_in; eauto; simpl; auto).
      assert (Iy : In y (x :: l1)) by (eapply Permutation_in; [apply Permutation_sym; eauto|simpl; auto]).
      destruct Ix as [E|Ix]; auto. destruct Iy as [E|Iy]; auto.
      rewrite Forall_forall in *. specialize (H2 y Iy). specialize (H6 x Ix). unfold klt in *; lia. }
    subst. f_equal. apply IH; auto. eapply Permutation_cons_inv; eauto.
Qed.

(** the result of sorting does not depend on the iteration order nor on the sorting algorithm *)
Lemma sort_keys_perm_eq : forall l1 l2 : list (N * V),
  NoDup (map fst l1) -> Permutation l1 l2 -> sort_keys l1 = sort_keys l2.
Proof.
  intros l1 l2 ND P. apply sorted_unique.
  - apply sort_keys_sorted; auto.
  - apply sort_keys_sorted. eapply Permutation_NoDup; [apply Permutation_map; eauto|auto].
  - rewrite !sort_keys_perm; auto.
Qed.
End Sort.

(** ** Row view of a CSR matrix *)
Definition slice {A} (a b : nat) (l : list A) : list A := firstn (b - a) (skipn a l).

Definition row_entries {V} (C : csr V) (i : nat) : list (nat * V) :=
  combine (slice (nth i (row_ptr C) 0) (nth (i + 1) (row_ptr C) 0) (col_ind C))
          (slice (nth i (row_ptr C) 0) (nth (i + 1) (row_ptr C) 0) (val C)).

Record wf_csr {V} (C : csr V) : Prop := {
  wf_rp : length (row_ptr C) = m C + 1;
  wf_diag : length (diag C) = m C;
  wf_cv : length (col_ind C) = length (val C);
  wf_mono : forall i, i < m C -> nth i (row_ptr C) 0 <= nth (i + 1) (row_ptr C) 0;
  wf_bound : forall i, i <= m C -> nth i (row_ptr C) 0 <= length (col_ind C);
  wf_upper : forall i c v, i < m C -> In (c, v) (row_entries C i) -> i < c < m C;
  wf_nodup : forall i, i < m C -> NoDup (map fst (row_entries C i)) }.

Section Rows.
Context {V : Type}.

Lemma loop_slice : forall S (f : nat -> V -> S -> res S) (col : list nat) (vl : list V) n a s,
  a + n <= length col -> a + n <= length vl ->
  forM_from n a (fun j s => v <- get vl j ;; c <- get col j ;; f c v s) s =
  forM_list (combine (firstn n (skipn a col)) (firstn n (skipn a vl))) (fun cv s => f (fst cv) (snd cv) s) s.
Proof.
  intros S f col vl; induction n as [|n IH]; intros a s H1 H2; simpl; auto.
  destruct (nth_error col a) as [c|] eqn:Ec; [|apply nth_error_None in Ec; lia].
  destruct (nth_error vl a) as [v|] eqn:Ev; [|apply nth_error_None in Ev; lia].
  assert (SK : forall A (l : list A) x, nth_error l a = Some x -> skipn a l = x :: skipn (Datatypes.S a) l).
  { clear. intros A; revert a; induction a as [|a IH]; intros [|y l] x H; simpl in *; try discriminate.
    - inversion H; auto.
    - rewrite (IH l x H). reflexivity. }
  rewrite (SK _ col c Ec), (SK _ vl v Ev). cbn [firstn combine forM_list fst snd].
  unfold get at 1 2. rewrite Ec, Ev. cbn [bind].
  destruct (f c v s); cbn [bind]; auto. apply IH; lia.
Qed.

Lemma row_loop : forall S (C : csr V) (f : nat -> V -> S -> res S) i s,
  wf_csr C -> i < m C ->
  (a <- get (row_ptr C) i ;; b <- get (row_ptr C) (i + 1) ;;
   forM_range a b (fun j s => v <- get (val C) j ;; c <- get (col_ind C) j ;; f c v s) s) =
  forM_list (row_entries C i) (fun cv s => f (fst cv) (snd cv) s) s.
Proof.
  intros S C f i s W Hi.
  rewrite (get_lt _ (row_ptr C) i 0) by (rewrite (wf_rp C W); lia).
  rewrite (get_lt _ (row_ptr C) (i + 1) 0) by (rewrite (wf_rp C W); lia). cbn [bind].
  unfold forM_range, row_entries, slice.
  pose proof (wf_mono C W i Hi). pose proof (wf_bound C W (i + 1) ltac:(lia)). pose proof (wf_cv C W).
  apply loop_slice; lia.
Qed.

Lemma row_scan_find : forall (C : csr V) n k j,
  k + n <= length (col_ind C) -> k + n <= length (val C) ->
  row_scan C n k j =
  Ok (match find (fun cv => Nat.eqb (fst cv) j) (combine (firstn n (skipn k (col_ind C))) (firstn n (skipn k (val C)))) with
      | Some cv => Some (snd cv) | None => None end).
Proof.
  intros C; induction n as [|n IH]; intros k j H1 H2; simpl; auto.
  destruct (nth_error (col_ind C) k) as [c|] eqn:Ec; [|apply nth_error_None in Ec; lia].
  destruct (nth_error (val C) k) as [v|] eqn:Ev; [|apply nth_error_None in Ev; lia].
  assert (SK : forall A (l : list A) x, nth_error l k = Some x -> skipn k l = x :: skipn (Datatypes.S k) l).
  { clear. intros A; revert k; induction k as [|k IH]; intros [|y l] x H; simpl in *; try discriminate.
    - inversion H; auto.
    - rewrite (IH l x H). reflexivity. }
  rewrite (SK _ _ c Ec), (SK _ _ v Ev). cbn [firstn combine find fst].
  unfold get at 1. rewrite Ec. cbn [bind]. destruct (Nat.eqb c j).
  - unfold get. rewrite Ev. reflexivity.
  - apply IH; lia.
Qed.

Definition row_lookup (l : list (nat * V)) (j : nat) (v0 : V) : V :=
  match find (fun cv => Nat.eqb (fst cv) j) l with Some cv => snd cv | None => v0 end.

Lemma csr_at_wf : forall v0 (C : csr V) i j, wf_csr C -> i < m C -> j < m C ->
  csr_at v0 C i j = Ok (if Nat.eqb i j then nth i (diag C) v0
                        else if Nat.ltb i j then row_lookup (row_entries C i) j v0
                        else row_lookup (row_entries C j) i v0).
Proof.
  intros v0 C i j W Hi Hj; unfold csr_at. pose proof (wf_rp C W). pose proof (wf_diag C W).
  assert (U : forall i j, i < m C -> (a <- get (row_ptr C) i ;; b <- get (row_ptr C) (i + 1) ;;
     o <- row_scan C (b - a) a j ;; Ok match o with Some v => v | None => v0 end) = Ok (row_lookup (row_entries C i) j v0)).
  { clear i j Hi Hj. intros i j Hi.
    rewrite (get_lt _ (row_ptr C) i 0) by lia. rewrite (get_lt _ (row_ptr C) (i + 1) 0) by lia. cbn [bind].
    pose proof (wf_mono C W i Hi). pose proof (wf_bound C W (i + 1) ltac:(lia)). pose proof (wf_cv C W).
    rewrite row_scan_find by lia. cbn [bind]. unfold row_lookup, row_entries, slice.
    destruct (find _ _); auto. }
  destruct (Nat.eqb_spec i j).
  - apply get_lt; lia.
  - destruct (Nat.ltb_spec i j); apply U; auto.
Qed.
End Rows.

(** ** The conversion *)
Section Build.
Context {V : Type}.
Variable v0 : V.

Definition offd (kv : N * V) : bool := negb (Nat.eqb (krow (fst kv)) (kcol (fst kv))).
Definition rowis (r : nat) (kv : N * V) : bool := Nat.eqb (krow (fst kv)) r.
Definition rowlt (r : nat) (kv : N * V) : bool := Nat.ltb (krow (fst kv)) r.
Definition count (f : N * V -> bool) (l : list (N * V)) : nat := length (filter f l).

(** all entries are upper triangular and inside an sz x sz matrix *)
Definition in_range (sz : nat) (l : list (N * V)) : Prop :=
  Forall (fun kv => good_key (fst kv) /\ kcol (fst kv) < sz) l.

Lemma count_app : forall f l1 l2, count f (l1 ++ l2) = count f l1 + count f l2.
Proof. intros; unfold count. rewrite filter_app, app_length; auto. Qed.

Lemma count_le_length : forall f l, count f l <= length l.
Proof. unfold count; induction l as [|x l IH]; cbn; auto. destruct (f x); cbn; lia. Qed.

Lemma find_key_app : forall (l1 l2 : list (N * V)) k,
  find_key (l1 ++ l2) k = match find_key l1 k with Some v => Some v | None => find_key l2 k end.
Proof.
  induction l1 as [|[k' w] l1 IH]; simpl; intros; auto. destruct (N.eqb k' k); auto.
Qed.

(** invariant of the filling loop after the prefix [pre] *)
Definition fill_inv (sz nz : nat) (pre : list (N * V)) (s : fill V) : Prop :=
  let E := filter offd pre in
  f_i s = length E /\
  f_ci s = map (fun kv => kcol (fst kv)) E ++ repeat 0 (nz - length E) /\
  f_val s = map snd E ++ repeat v0 (nz - length E) /\
  length (f_diag s) = sz /\
  (forall r, r < sz -> nth r (f_diag s) v0 = match find_key pre (key r r) with Some v => v | None => v0 end) /\
  length (f_rp s) = sz + 1 /\
  nth 0 (f_rp s) 0 = 0 /\
  (forall r, r < sz -> nth (r + 1) (f_rp s) 0 = count (rowis r) E).

Lemma upd_app_repeat : forall A (l : list A) n x d, 0 < n ->
  upd (l ++ repeat d n) (length l) x = (l ++ [x]) ++ repeat d (n - 1).
Proof.
  induction l as [|y l IH]; intros n x d Hn; simpl.
  - destruct n; [lia|]. simpl. rewrite Nat.sub_0_r; auto.
  - f_equal; auto.
Qed.

Lemma fill_step_ok : forall sz nz pre x s,
  is_u32 (sz + 1) -> in_range sz (pre ++ [x]) -> NoDup (map fst (pre ++ [x])) ->
  length (filter offd (pre ++ [x])) <= nz ->
  fill_inv sz nz pre s -> exists s', fill_step x s = Ok s' /\ fill_inv sz nz (pre ++ [x]) s'.
Proof.
  intros sz nz pre [k v] s Hsz R ND Hnz [Hi [Hci [Hv [Hdl [Hd [Hrl [Hr0 Hr]]]]]]].
  assert (Rx : good_key k /\ kcol k < sz).
  { unfold in_range in R. rewrite Forall_forall in R. apply (R (k, v)). apply in_or_app; simpl; auto. }
  destruct Rx as [G Hc]. destruct (good_key_parts k G) as [Ur [Uc [L Ek]]].
  unfold fill_step; cbn [fst snd]. rewrite filter_app in Hnz. cbn [filter] in Hnz.
  unfold fill_inv. rewrite filter_app. cbn [filter].
  destruct (Nat.eqb_spec (krow k) (kcol k)) as [E|E].
  - (* diagonal *)
    assert (OF : offd (k, v) = false) by (unfold offd; cbn; rewrite E, Nat.eqb_refl; auto).
    rewrite OF. rewrite app_nil_r.
    rewrite set_lt by lia. cbn [bind]. eexists; split; [reflexivity|]. cbn [f_i f_rp f_ci f_val f_diag].
    repeat (split; [solve [auto | rewrite upd_length; auto]|]).
    split; [|auto].
    intros r Hr'. rewrite find_key_app. rewrite nth_upd by lia.
    destruct (Nat.eqb_spec r (krow k)) as [Er|Er].
    + subst r. assert (key (krow k) (krow k) = k) by (rewrite E at 2; auto). rewrite H.
      assert (find_key pre k = None).
      { apply find_key_none. rewrite map_app in ND. cbn in ND.
        apply NoDup_remove_2 in ND. rewrite app_nil_r in ND; auto. }
      rewrite H0. cbn. rewrite N.eqb_refl; auto.
    + rewrite Hd by auto. destruct (find_key pre (key r r)); auto. cbn.
      destruct (N.eqb_spec k (key r r)) as [Ek2|Ek2]; auto.
      exfalso; apply Er. rewrite Ek2. rewrite krow_key; auto; apply (is_u32_le r (sz + 1)); auto; lia.
  - assert (OF : offd (k, v) = true) by (unfold offd; cbn; apply Nat.eqb_neq in E; rewrite E; auto).
    rewrite OF in *. rewrite app_length in *. cbn [length] in *.
    assert (Lci : length (f_ci s) = nz) by (rewrite Hci, app_length, map_length, repeat_length; lia).
    assert (Lv : length (f_val s) = nz) by (rewrite Hv, app_length, map_length, repeat_length; lia).
    rewrite set_lt by lia. cbn [bind]. rewrite set_lt by lia. cbn [bind].
    rewrite u32_id by (apply (is_u32_le _ (sz + 1)); auto; lia).
    rewrite (get_lt _ _ _ 0) by lia. cbn [bind]. rewrite set_lt by lia. cbn [bind].
    eexists; split; [reflexivity|]. cbn [f_i f_rp f_ci f_val f_diag].
    split; [lia|]. split; [|split; [|split; [|split; [|split; [|split]]]]].
    + rewrite Hci, Hi. rewrite map_app. cbn.
      replace (length (filter offd pre)) with (length (map (fun kv : N * V => kcol (fst kv)) (filter offd pre))) at 2 by apply map_length.
      rewrite upd_app_repeat by lia. f_equal. f_equal. lia.
    + rewrite Hv, Hi. rewrite map_app. cbn.
      replace (length (filter offd pre)) with (length (map snd (filter offd pre))) at 2 by apply map_length.
      rewrite upd_app_repeat by lia. f_equal. f_equal. lia.
    + auto.
    + intros r Hr'. rewrite find_key_app, Hd by auto. destruct (find_key pre (key r r)); auto. cbn.
      destruct (N.eqb_spec k (key r r)) as [Ek2|Ek2]; auto.
      exfalso; apply E. rewrite Ek2.
      assert (is_u32 r) by (apply (is_u32_le r (sz + 1)); auto; lia).
      rewrite krow_key, kcol_key; auto.
    + rewrite upd_length; auto.
    + rewrite nth_upd_other by lia; auto.
    + intros r Hr'. rewrite nth_upd by lia. rewrite count_app. unfold count at 2. cbn [filter].
      unfold rowis at 2. cbn [fst].
      destruct (Nat.eqb_spec (r + 1) (krow k + 1)) as [Er|Er].
      * assert (r = krow k) by lia; subst r. rewrite Nat.eqb_refl. cbn [length].
        rewrite Hr by lia. lia.
      * destruct (Nat.eqb_spec (krow k) r); [lia|]. cbn [length]. rewrite Hr by auto. lia.
Qed.

Lemma fill_loop_ok : forall sz nz es,
  is_u32 (sz + 1) -> in_range sz es -> NoDup (map fst es) ->
  length (filter offd es) <= nz ->
  exists s, forM_list es fill_step
         (mkFill 0 (repeat 0 (u32 (sz + 1))) (repeat 0 nz) (repeat v0 nz) (repeat v0 sz)) = Ok s /\
       fill_inv sz nz es s.
Proof.
  intros sz nz es Hsz R ND Hn. rewrite u32_id by auto.
  apply (forM_list_inv _ _ (fill_inv sz nz)).
  - unfold fill_inv; cbn. rewrite Nat.sub_0_r, !repeat_length.
    repeat (split; [solve [auto]|]).
    split; [intros r _; apply nth_repeat|].
    split; [auto|]. split; [apply nth_repeat|]. intros; apply nth_repeat.
  - intros pre x post s E I.
    assert (R' : in_range sz (pre ++ [x])).
    { unfold in_range in *. rewrite Forall_forall in *. intros y Hy. apply R. subst es.
      apply in_app_or in Hy. apply in_or_app. cbn in *. destruct Hy as [Hy|[Hy|[]]]; auto. }
    assert (E' : es = (pre ++ [x]) ++ post) by (subst; rewrite <- app_assoc; auto).
    apply fill_step_ok; auto.
    + rewrite E' in ND. rewrite map_app in ND.
      clear -ND. induction post as [|y post IH]; [rewrite app_nil_r in ND; auto|].
      apply IH. cbn in ND. apply NoDup_remove_1 in ND. auto.
    + rewrite E', filter_app, app_length in Hn. lia.
Qed.

(** *** prefix sums *)
Fixpoint sum_upto (f : nat -> nat) (n : nat) : nat :=
  match n with O => 0 | S n' => sum_upto f n' + f n' end.

Lemma prefix_ok : forall sz rp,
  length rp = sz + 1 -> nth 0 rp 0 = 0 ->
  exists rp', forM_up sz prefix_step rp = Ok rp' /\ length rp' = sz + 1 /\
    forall i, i <= sz -> nth i rp' 0 = sum_upto (fun r => nth (r + 1) rp 0) i.
Proof.
  intros sz rp Hl H0.
  destruct (forM_up_inv _ (fun n rp' => length rp' = sz + 1 /\
      (forall i, i <= n -> nth i rp' 0 = sum_upto (fun r => nth (r + 1) rp 0) i) /\
      (forall i, n < i <= sz -> nth i rp' 0 = nth i rp 0)) prefix_step sz rp) as [rp' [E [L [A _]]]].
  - split; auto. split; auto. intros i Hi. assert (i = 0) by lia; subst; auto.
  - intros i rp' Hi [L [A B]]. unfold prefix_step.
    rewrite (get_lt _ _ i 0) by lia. cbn [bind]. rewrite (get_lt _ _ (i + 1) 0) by lia. cbn [bind].
    rewrite set_lt by lia. eexists; split; [reflexivity|]. rewrite upd_length. split; auto. split.
    + intros j Hj. rewrite nth_upd by lia. destruct (Nat.eqb_spec j (i + 1)) as [Ej|Ej].
      * subst j. transitivity (sum_upto (fun r => nth (r + 1) rp 0) (Datatypes.S i)); [|f_equal; lia]. cbn [sum_upto].
        rewrite (A i), (B (i + 1)) by lia. lia.
      * apply A; lia.
    + intros j Hj. rewrite nth_upd_other by lia. apply B; lia.
  - exists rp'; split; auto.
Qed.

Lemma sum_count : forall (E : list (N * V)) i, sum_upto (fun r => count (rowis r) E) i = count (rowlt i) E.
Proof.
  intros E; induction i as [|i IH]; cbn [sum_upto].
  - unfold count. induction E as [|x E IHE]; auto.
  - rewrite IH. clear IH. unfold count. induction E as [|x E IHE]; auto. cbn [filter].
    assert (HH : rowlt (Datatypes.S i) x = rowlt i x || rowis i x).
    { unfold rowlt, rowis. destruct (Nat.ltb_spec (krow (fst x)) i), (Nat.eqb_spec (krow (fst x)) i), (Nat.ltb_spec (krow (fst x)) (Datatypes.S i)); auto; lia. }
    assert (HD : rowlt i x = true -> rowis i x = false).
    { unfold rowlt, rowis. destruct (Nat.ltb_spec (krow (fst x)) i), (Nat.eqb_spec (krow (fst x)) i); auto; lia. }
    rewrite HH. destruct (rowlt i x) eqn:E1, (rowis i x) eqn:E2; cbn [orb length]; try lia; specialize (HD eq_refl); discriminate.
Qed.

Definition row_sorted (E : list (N * V)) : Prop :=
  StronglySorted (fun a b => krow (fst a) <= krow (fst b)) E.

Lemma row_split : forall E i, row_sorted E ->
  E = filter (rowlt i) E ++ filter (rowis i) E ++ filter (fun kv => negb (rowlt i kv) && negb (rowis i kv)) E.
Proof.
  induction E as [|x E IH]; intros i S; auto. inversion S; subst. specialize (IH i H1).
  rewrite Forall_forall in H2.
  assert (NIL : forall f : N * V -> bool, (forall y, In y E -> f y = false) -> filter f E = []).
  { clear. induction E as [|y E IHE]; intros f H; cbn; auto. rewrite (H y) by (cbn; auto). apply IHE. intros; apply H; cbn; auto. }
  cbn [filter].
  destruct (rowlt i x) eqn:E1, (rowis i x) eqn:E2; cbn [negb andb app].
  - unfold rowlt, rowis in *. apply Nat.ltb_lt in E1. apply Nat.eqb_eq in E2. lia.
  - f_equal; auto.
  - unfold rowlt in E1; unfold rowis in E2. apply Nat.eqb_eq in E2.
    assert (F0 : filter (rowlt i) E = []).
    { apply NIL. intros y Hy. specialize (H2 y Hy). unfold rowlt. apply Nat.ltb_ge. lia. }
    rewrite F0 in *. cbn in *. f_equal; auto.
  - unfold rowlt in E1; unfold rowis in E2. apply Nat.ltb_ge in E1. apply Nat.eqb_neq in E2.
    assert (F0 : filter (rowlt i) E = []).
    { apply NIL. intros y Hy. specialize (H2 y Hy). unfold rowlt. apply Nat.ltb_ge. lia. }
    assert (F1 : filter (rowis i) E = []).
    { apply NIL. intros y Hy. specialize (H2 y Hy). unfold rowis. apply Nat.eqb_neq. lia. }
    rewrite F0, F1 in *. cbn in *. f_equal; auto.
Qed.

Lemma slice_app3 : forall A (l1 l2 l3 : list A),
  slice (length l1) (length l1 + length l2) (l1 ++ l2 ++ l3) = l2.
Proof.
  intros; unfold slice. rewrite skipn_app, skipn_all, Nat.sub_diag. cbn.
  replace (length l1 + length l2 - length l1) with (length l2) by lia.
  rewrite firstn_app, firstn_all, Nat.sub_diag. cbn. rewrite app_nil_r; auto.
Qed.

Lemma filter_sorted : forall (R : N * V -> N * V -> Prop) f l, StronglySorted R l -> StronglySorted R (filter f l).
Proof.
  induction l as [|x l IH]; intros S; cbn; auto. inversion S; subst.
  destruct (f x); auto. constructor; auto. rewrite Forall_forall in *. intros y Hy. apply H2.
  apply filter_In in Hy; tauto.
Qed.

Lemma sorted_weaken : forall (R1 R2 : N * V -> N * V -> Prop) l,
  (forall a b, In a l -> In b l -> R1 a b -> R2 a b) -> StronglySorted R1 l -> StronglySorted R2 l.
Proof.
  induction l as [|x l IH]; intros H S; constructor; inversion S; subst.
  - apply IH; auto. intros; apply H; cbn; auto.
  - rewrite Forall_forall in *. intros y Hy. apply H; cbn; auto.
Qed.

(** good keys sort row by row *)
Lemma klt_row : forall (a b : N * V), good_key (fst a) -> good_key (fst b) -> klt a b ->
  krow (fst a) < krow (fst b) \/ (krow (fst a) = krow (fst b) /\ kcol (fst a) < kcol (fst b)).
Proof.
  intros a b Ga Gb L. destruct (good_key_parts _ Ga) as [U1 [U2 [_ E1]]]. destruct (good_key_parts _ Gb) as [U3 [U4 [_ E2]]].
  unfold klt in L. rewrite E1, E2 in L. apply key_lt in L; auto.
Qed.

Definition has_diag (sz : nat) (l : list (N * V)) : Prop := forall i, i < sz -> In (key i i) (map fst l).

Lemma filter_split_length : forall (f : N * V -> bool) l, length l = count f l + count (fun x => negb (f x)) l.
Proof.
  unfold count. induction l as [|x l IH]; cbn; auto. destruct (f x); cbn; lia.
Qed.

Lemma diag_count_le : forall sz l, is_u32 (sz + 1) -> in_range sz l -> NoDup (map fst l) -> count (fun x => negb (offd x)) l <= sz.
Proof.
  intros sz l Hsz R ND. unfold count.
  rewrite <- (map_length (fun kv => krow (fst kv))). rewrite <- (seq_length sz 0).
  apply NoDup_incl_length.
  - induction l as [|x l IH]; cbn; [constructor|]. inversion ND; subst. inversion R; subst.
    unfold offd at 1. rewrite negb_involutive. destruct (Nat.eqb_spec (krow (fst x)) (kcol (fst x))) as [E|E]; [|apply IH; auto].
    cbn. constructor; [|apply IH; auto].
    intros I. apply in_map_iff in I. destruct I as [y [E1 E2]]. apply filter_In in E2. destruct E2 as [E2 E3].
    unfold offd in E3. rewrite negb_involutive in E3. apply Nat.eqb_eq in E3.
    assert (Gy : good_key (fst y)) by (rewrite Forall_forall in H4; apply (H4 y); auto).
    destruct H3 as [Gx _]. apply H1.
    destruct (good_key_parts _ Gx) as [_ [_ [_ Kx]]]. destruct (good_key_parts _ Gy) as [_ [_ [_ Ky]]].
    rewrite Kx. rewrite <- E, <- E1. rewrite E3 at 2. rewrite <- Ky. apply in_map; auto.
  - intros r I. apply in_map_iff in I. destruct I as [y [E1 E2]]. apply filter_In in E2. destruct E2 as [E2 E3].
    unfold in_range in R. rewrite Forall_forall in R. destruct (R y E2) as [Gy Hy].
    destruct (good_key_parts _ Gy) as [_ [_ [Ly _]]]. apply in_seq. subst r. lia.
Qed.

Lemma diag_count_full : forall sz l, is_u32 (sz + 1) -> in_range sz l -> NoDup (map fst l) ->
  (has_diag sz l <-> count (fun x => negb (offd x)) l = sz).
Proof.
  intros sz l Hsz R ND. split.
  - intros H. apply Nat.le_antisymm; [apply diag_count_le; auto|].
    unfold count. rewrite <- (map_length (fun kv => krow (fst kv))). rewrite <- (seq_length sz 0) at 1.
    apply NoDup_incl_length; [apply seq_NoDup|]. intros i Hi. apply in_seq in Hi.
    assert (Ui : is_u32 i) by (apply (is_u32_le i (sz + 1)); auto; lia).
    specialize (H i ltac:(lia)). apply in_map_iff in H. destruct H as [y [E I]].
    apply in_map_iff. exists y. split.
    + rewrite E. apply krow_key; auto.
    + apply filter_In; split; auto. unfold offd. rewrite E, krow_key, kcol_key, Nat.eqb_refl; auto.
  - intros H i Hi.
    destruct (in_dec N.eq_dec (key i i) (map fst l)) as [I|I]; auto. exfalso.
    (* the diagonal rows would fit in a set of size sz - 1 *)
    assert (Ui : is_u32 i) by (apply (is_u32_le i (sz + 1)); auto; lia).
    set (D := map (fun kv => krow (fst kv)) (filter (fun x => negb (offd x)) l)).
    assert (NI : ~ In i D).
    { unfold D; intros J. apply in_map_iff in J. destruct J as [y [E1 E2]]. apply filter_In in E2. destruct E2 as [E2 E3].
      unfold offd in E3. rewrite negb_involutive in E3. apply Nat.eqb_eq in E3.
      unfold in_range in R. rewrite Forall_forall in R. destruct (R y E2) as [Gy _].
      destruct (good_key_parts _ Gy) as [_ [_ [_ Ky]]]. apply I. rewrite <- E1. rewrite E3 at 2. rewrite <- Ky. apply in_map; auto. }
    assert (length (i :: D) <= sz).
    { rewrite <- (seq_length sz 0). apply NoDup_incl_length.
      - constructor; auto. unfold D. clear -R ND. induction l as [|x l IH]; cbn; [constructor|]. inversion ND; subst. inversion R; subst.
        unfold offd at 1. rewrite negb_involutive. destruct (Nat.eqb_spec (krow (fst x)) (kcol (fst x))) as [E|E]; [|apply IH; auto].
        cbn. constructor; [|apply IH; auto].
        intros I. apply in_map_iff in I. destruct I as [y [E1 E2]]. apply filter_In in E2. destruct E2 as [E2 E3].
        unfold offd in E3. rewrite negb_involutive in E3. apply Nat.eqb_eq in E3.
        assert (Gy : good_key (fst y)) by (rewrite Forall_forall in H4; apply (H4 y); auto).
        destruct H3 as [Gx _]. apply H1.
        destruct (good_key_parts _ Gx) as [_ [_ [_ Kx]]]. destruct (good_key_parts _ Gy) as [_ [_ [_ Ky]]].
        rewrite Kx. rewrite <- E, <- E1. rewrite E3 at 2. rewrite <- Ky. apply in_map; auto.
      - intros r [J|J]; [subst; apply in_seq; lia|]. apply in_map_iff in J. destruct J as [y [E1 E2]]. apply filter_In in E2. destruct E2 as [E2 E3].
        unfold in_range in R. rewrite Forall_forall in R. destruct (R y E2) as [Gy Hy].
        destruct (good_key_parts _ Gy) as [_ [_ [Ly _]]]. apply in_seq. subst r. lia. }
    cbn in H0. unfold D in H0. rewrite map_length in H0. unfold count in H. lia.
Qed.

(** the built matrix: exact row contents *)
Lemma csr_build_ok : forall A : coo V,
  is_u32 (cm A + 1) -> is_u32 (length (elems A)) -> in_range (cm A) (elems A) -> NoDup (map fst (elems A)) ->
  has_diag (cm A) (elems A) ->
  exists C, csr_build v0 A = Ok C /\ wf_csr C /\ m C = cm A /\
    nnz C = count offd (elems A) /\ (nnz C = length (val C) /\ val C = map snd (filter offd (sort_keys (elems A)))) /\
    (forall i, i < cm A -> nth i (diag C) v0 = match find_key (elems A) (key i i) with Some v => v | None => v0 end) /\
    (forall i, i < cm A -> row_entries C i =
       map (fun kv => (kcol (fst kv), snd kv)) (filter (rowis i) (filter offd (sort_keys (elems A))))).
Proof.
  intros A Hm Hl R ND HD. unfold csr_build.
  set (es := sort_keys (elems A)). set (sz := cm A) in *.
  assert (P : Permutation es (elems A)) by apply sort_keys_perm.
  assert (NDs : NoDup (map fst es)) by (eapply Permutation_NoDup; [apply Permutation_map, Permutation_sym; eauto|auto]).
  assert (Rs : in_range sz es).
  { unfold in_range in *. rewrite Forall_forall in *. intros x Hx. apply R. eapply Permutation_in; eauto. }
  assert (HDs : has_diag sz es).
  { intros i Hi. eapply Permutation_in; [apply Permutation_map, Permutation_sym; eauto|auto]. }
  assert (Ss : StronglySorted klt es) by (apply sort_keys_sorted; auto).
  pose proof (proj1 (diag_count_full sz es Hm Rs NDs) HDs) as Cd.
  pose proof (filter_split_length offd es) as Ls. rewrite Cd in Ls.
  assert (Les : length es = length (elems A)) by (apply Permutation_length; auto).
  assert (Nz : u32_sub (length es) sz = count offd es).
  { rewrite u32_sub_le; [lia|lia|]. rewrite Les; auto. }
  rewrite Nz.
  destruct (fill_loop_ok sz (count offd es) es Hm Rs NDs (Nat.le_refl _)) as [s [Es [Hi [Hci [Hv [Hdl [Hd [Hrl [Hr0 Hr]]]]]]]]].
  rewrite Es. cbn [bind].
  destruct (prefix_ok sz (f_rp s) Hrl Hr0) as [rp [Ep [Lp Hp]]].
  rewrite Ep. cbn [bind]. eexists; split; [reflexivity|].
  set (E := filter offd es) in *.
  assert (Hp' : forall i, i <= sz -> nth i rp 0 = count (rowlt i) E).
  { intros i Hi'. rewrite Hp by auto. rewrite <- sum_count.
    clear -Hr Hi'. induction i as [|i IH]; cbn; auto. rewrite IH by lia. rewrite Hr by lia. auto. }
  unfold count in Hci, Hv. fold E in Hci, Hv. rewrite Nat.sub_diag in Hci, Hv. cbn in Hci, Hv. rewrite app_nil_r in Hci, Hv.
  assert (GE : forall x, In x E -> good_key (fst x) /\ kcol (fst x) < sz /\ krow (fst x) < kcol (fst x)).
  { intros x Hx. apply filter_In in Hx. destruct Hx as [Hx Ho].
    unfold in_range in Rs. rewrite Forall_forall in Rs. destruct (Rs x Hx) as [G K]. split; auto. split; auto.
    destruct (good_key_parts _ G) as [_ [_ [L _]]]. unfold offd in Ho.
    destruct (Nat.eqb_spec (krow (fst x)) (kcol (fst x))); [discriminate|lia]. }
  assert (SE : StronglySorted klt E) by (apply filter_sorted; auto).
  assert (RSE : row_sorted E).
  { unfold row_sorted. eapply sorted_weaken; [|exact SE]. intros a b Ia Ib L.
    destruct (klt_row a b (proj1 (GE a Ia)) (proj1 (GE b Ib)) L); lia. }
  assert (RE : forall i, i < sz ->
     row_entries (mkCsr rp (f_ci s) (f_val s) (f_diag s) (count offd es) sz) i =
     map (fun kv => (kcol (fst kv), snd kv)) (filter (rowis i) E)).
  { intros i Hi'. unfold row_entries; cbn [row_ptr col_ind val].
    rewrite !Hp' by lia.
    assert (LT : count (rowlt (i + 1)) E = length (filter (rowlt i) E) + length (filter (rowis i) E)).
    { replace (i + 1) with (Datatypes.S i) by lia. rewrite <- sum_count. cbn [sum_upto]. rewrite sum_count. reflexivity. }
    rewrite LT. unfold count. rewrite Hci, Hv.
    assert (SL : forall B (f : N * V -> B), slice (length (filter (rowlt i) E)) (length (filter (rowlt i) E) + length (filter (rowis i) E)) (map f E) = map f (filter (rowis i) E)).
    { intros B f. pose proof (row_split E i RSE) as Q. set (l3 := filter _ E) in Q at 3.
      replace (map f E) with (map f (filter (rowlt i) E) ++ map f (filter (rowis i) E) ++ map f l3) by (rewrite <- !map_app, <- Q; auto).
      rewrite <- (map_length f (filter (rowlt i) E)). rewrite <- (map_length f (filter (rowis i) E)). apply slice_app3. }
    rewrite !SL. clear. induction (filter (rowis i) E) as [|x l IH]; cbn; auto. rewrite IH; auto. }
  assert (CntE : count offd es = length E) by reflexivity.
  split; [|split; [|split; [|split; [|split]]]]; auto.
  - constructor; cbn [row_ptr col_ind val diag m].
    + auto.
    + auto.
    + rewrite Hci, Hv, !map_length; auto.
    + intros i Hi'. rewrite !Hp' by lia. rewrite <- !sum_count. replace (i + 1) with (Datatypes.S i) by lia. cbn. lia.
    + intros i Hi'. rewrite Hp' by auto. rewrite Hci, map_length. apply count_le_length.
    + intros i c v Hi' I. rewrite RE in I by auto. apply in_map_iff in I. destruct I as [x [Ex Ix]].
      apply filter_In in Ix. destruct Ix as [Ix Rx]. inversion Ex; subst. unfold rowis in Rx. apply Nat.eqb_eq in Rx. subst i.
      destruct (GE x Ix) as [_ [K L]]. lia.
    + intros i Hi'. rewrite RE by auto. rewrite map_map. cbn [fst].
      assert (NDE : NoDup (map fst E)).
      { unfold E. clear -NDs. induction es as [|x l IH]; cbn; [constructor|]. inversion NDs; subst. destruct (offd x); cbn; auto.
        constructor; auto. intros I. apply H1. apply in_map_iff in I. destruct I as [y [Ey Iy]]. apply filter_In in Iy. rewrite <- Ey. apply in_map; tauto. }
      clear -NDE GE. induction E as [|x E IH]; cbn; [constructor|]. inversion NDE; subst.
      assert (GE' : forall y, In y E -> good_key (fst y) /\ kcol (fst y) < sz /\ krow (fst y) < kcol (fst y)) by (intros; apply GE; cbn; auto).
      unfold rowis at 1. destruct (Nat.eqb_spec (krow (fst x)) i) as [Ex|Ex]; [|apply IH; auto].
      cbn. constructor; [|apply IH; auto].
      intros I. apply in_map_iff in I. destruct I as [y [Ey Iy]]. apply filter_In in Iy. destruct Iy as [Iy Ry].
      unfold rowis in Ry. apply Nat.eqb_eq in Ry. apply H1.
      destruct (GE x (or_introl eq_refl)) as [Gx _]. destruct (GE' y Iy) as [Gy _].
      destruct (good_key_parts _ Gx) as [_ [_ [_ Kx]]]. destruct (good_key_parts _ Gy) as [_ [_ [_ Ky]]].
      rewrite Kx, Ex, <- Ey, <- Ry, <- Ky. apply in_map; auto.
  - cbn [nnz]. unfold count. apply Permutation_length. 
    clear -P. induction P as [|x l l' P IH|x y l|l l' l'' P1 IH1 P2 IH2]; cbn.
    + constructor.
    + destruct (offd x); auto.
    + destruct (offd x), (offd y); auto. apply perm_swap.
    + eapply perm_trans; eauto.
  - cbn [nnz val]. split; [rewrite Hv, map_length; auto|exact Hv].
  - intros i Hi'. cbn [diag]. rewrite Hd by auto. rewrite (find_key_perm es (elems A)); auto.
Qed.

Lemma build_lookup : forall A : coo V, forall C,
  is_u32 (cm A + 1) -> in_range (cm A) (elems A) -> NoDup (map fst (elems A)) ->
  (forall i, i < cm A -> row_entries C i =
       map (fun kv => (kcol (fst kv), snd kv)) (filter (rowis i) (filter offd (sort_keys (elems A))))) ->
  forall i j, i < j -> j < cm A ->
    row_lookup (row_entries C i) j v0 = match find_key (elems A) (key i j) with Some v => v | None => v0 end.
Proof.
  intros A C Hm R ND RE i j L Hj. rewrite RE by lia. unfold row_lookup.
  assert (P : Permutation (sort_keys (elems A)) (elems A)) by apply sort_keys_perm.
  rewrite <- (find_key_perm (sort_keys (elems A)) (elems A)); auto.
  2:{ eapply Permutation_NoDup; [apply Permutation_map, Permutation_sym; eauto|auto]. }
  assert (Rs : in_range (cm A) (sort_keys (elems A))).
  { unfold in_range in *. rewrite Forall_forall in *. intros x Hx. apply R. eapply Permutation_in; eauto. }
  assert (Ui : is_u32 i) by (apply (is_u32_le i (cm A + 1)); auto; lia).
  assert (Uj : is_u32 j) by (apply (is_u32_le j (cm A + 1)); auto; lia).
  clear -Rs L Ui Uj. induction (sort_keys (elems A)) as [|[k v] l IH]; cbn; auto.
  inversion Rs; subst. specialize (IH H2). destruct H1 as [G K]; cbn in G, K.
  destruct (good_key_parts _ G) as [_ [_ [_ Kx]]].
  destruct (N.eqb_spec k (key i j)) as [Ek|Ek].
  - subst k. unfold offd; cbn [fst]. rewrite krow_key, kcol_key by auto.
    destruct (Nat.eqb_spec i j); [lia|]. cbn [negb filter]. unfold rowis at 1; cbn [fst]. rewrite krow_key, Nat.eqb_refl by auto.
    cbn. rewrite kcol_key, Nat.eqb_refl by auto. auto.
  - unfold offd at 1; cbn [fst]. destruct (Nat.eqb_spec (krow k) (kcol k)); cbn [negb]; auto.
    cbn [filter]. unfold rowis at 1; cbn [fst]. destruct (Nat.eqb_spec (krow k) i); auto.
    cbn. destruct (Nat.eqb_spec (kcol k) j); auto. exfalso; apply Ek. rewrite Kx. congruence.
Qed.

(** C02: lossless conversion *)
Lemma csr_build_lossless : forall A : coo V,
  is_u32 (cm A + 1) -> is_u32 (length (elems A)) -> in_range (cm A) (elems A) -> NoDup (map fst (elems A)) ->
  has_diag (cm A) (elems A) ->
  exists C, csr_build v0 A = Ok C /\ m C = cm A /\
    forall i j, i < cm A -> j < cm A ->
      csr_at v0 C i j = Ok (match find_key (elems A) (key (Nat.min i j) (Nat.max i j)) with Some v => v | None => v0 end).
Proof.
  intros A Hm Hl R ND HD. destruct (csr_build_ok A Hm Hl R ND HD) as [C [E [W [Mm [_ [_ [D RE]]]]]]].
  exists C; split; auto. split; auto. intros i j Hi Hj.
  rewrite csr_at_wf by (auto; lia). f_equal.
  destruct (Nat.eqb_spec i j) as [Eij|Eij].
  - subst. rewrite Nat.min_id, Nat.max_id. auto.
  - destruct (Nat.ltb_spec i j).
    + rewrite Nat.min_l, Nat.max_r by lia. apply (build_lookup A C); auto.
    + rewrite Nat.min_r, Nat.max_l by lia. apply (build_lookup A C); auto; lia.
Qed.

Lemma csr_build_order : forall A1 A2 : coo V,
  NoDup (map fst (elems A1)) -> Permutation (elems A1) (elems A2) -> cm A1 = cm A2 ->
  csr_build v0 A1 = csr_build v0 A2.
Proof.
  intros A1 A2 ND P M. unfold csr_build. rewrite (sort_keys_perm_eq (elems A1) (elems A2)), M; auto.
Qed.

(** a loop that runs out of the nz slots *)
Lemma fill_overflow : forall sz nz es,
  is_u32 (sz + 1) -> in_range sz es -> NoDup (map fst es) -> nz < length (filter offd es) ->
  is_ub (forM_list es fill_step
         (mkFill 0 (repeat 0 (u32 (sz + 1))) (repeat 0 nz) (repeat v0 nz) (repeat v0 sz))).
Proof.
  intros sz nz es Hm R ND L.
  assert (SP : exists pre x post, es = pre ++ x :: post /\ length (filter offd pre) = nz /\ offd x = true).
  { clear -L. revert nz L. induction es as [|x es IH]; intros nz L; cbn in L; [lia|].
    destruct (offd x) eqn:O.
    - destruct nz as [|nz]; [exists [], x, es; auto|]. cbn in L. destruct (IH nz ltac:(lia)) as [pre [y [post [E [F G]]]]].
      exists (x :: pre), y, post. subst; cbn. rewrite O; cbn. auto.
    - destruct (IH nz L) as [pre [y [post [E [F G]]]]].
      exists (x :: pre), y, post. subst; cbn. rewrite O; cbn. auto. }
  destruct SP as [pre [x [post [E [F G]]]]].
  assert (Rp : in_range sz pre) by (unfold in_range in *; rewrite E in R; apply Forall_app in R; tauto).
  assert (NDp : NoDup (map fst pre)).
  { rewrite E, map_app in ND. clear -ND. induction pre as [|y pre IH]; cbn in *; constructor; inversion ND; subst; auto.
    intros I; apply H1; apply in_or_app; auto. }
  destruct (fill_loop_ok sz nz pre Hm Rp NDp ltac:(lia)) as [s [Es [Hi [Hci [Hv _]]]]].
  rewrite E, forM_list_app, Es. cbn [bind forM_list].
  unfold fill_step. unfold offd in G. destruct (Nat.eqb (krow (fst x)) (kcol (fst x))); [discriminate|].
  destruct (set_ge _ (f_ci s) (f_i s) (kcol (fst x))) as [u Eu].
  { rewrite Hci, Hi, app_length, map_length, repeat_length. lia. }
  rewrite Eu. cbn. eexists; reflexivity.
Qed.

(** C03: exact classification of the conversion for in-range upper-triangular content. *)
Lemma csr_build_trichotomy : forall A : coo V,
  is_u32 (cm A + 1) -> is_u32 (length (elems A)) -> in_range (cm A) (elems A) -> NoDup (map fst (elems A)) ->
  (has_diag (cm A) (elems A) /\ exists C, csr_build v0 A = Ok C /\ nnz C = count offd (elems A)) \/
  (~ has_diag (cm A) (elems A) /\ cm A <= length (elems A) /\ is_ub (csr_build v0 A)) \/
  (length (elems A) < cm A /\ exists C, csr_build v0 A = Ok C /\
     (Z.of_nat (nnz C) = 2 ^ 32 - (Z.of_nat (cm A) - Z.of_nat (length (elems A))))%Z).
Proof.
  intros A Hm Hl R ND.
  assert (P : Permutation (sort_keys (elems A)) (elems A)) by apply sort_keys_perm.
  set (es := sort_keys (elems A)) in *.
  assert (NDs : NoDup (map fst es)) by (eapply Permutation_NoDup; [apply Permutation_map, Permutation_sym; eauto|auto]).
  assert (Rs : in_range (cm A) es).
  { unfold in_range in *. rewrite Forall_forall in *. intros x Hx. apply R. eapply Permutation_in; eauto. }
  assert (HDp : has_diag (cm A) es <-> has_diag (cm A) (elems A)).
  { split; intros H i Hi; (eapply Permutation_in; [apply Permutation_map|apply H; auto]); auto. apply Permutation_sym; auto. }
  assert (Les : length es = length (elems A)) by (apply Permutation_length; auto).
  pose proof (filter_split_length offd es) as Ls. pose proof (diag_count_le (cm A) es Hm Rs NDs) as Cle.
  destruct (Nat.eq_dec (count (fun x => negb (offd x)) es) (cm A)) as [Cd|Cd].
  - left. assert (HD : has_diag (cm A) (elems A)) by (apply HDp; apply (diag_count_full (cm A) es Hm Rs NDs); auto).
    split; auto. destruct (csr_build_ok A Hm Hl R ND HD) as [C [E [_ [_ [N _]]]]]. exists C; auto.
  - assert (NHD : ~ has_diag (cm A) (elems A)).
    { intros H; apply Cd. apply (diag_count_full (cm A) es Hm Rs NDs). apply HDp; auto. }
    right. destruct (Nat.le_gt_cases (cm A) (length (elems A))) as [Lm|Lm].
    + left. split; auto. split; auto. unfold csr_build. fold es.
      assert (Nz : u32_sub (length es) (cm A) = length es - cm A) by (apply u32_sub_le; [lia|rewrite Les; auto]).
      rewrite Nz. destruct (fill_overflow (cm A) (length es - cm A) es Hm Rs NDs) as [u Eu].
      { unfold count in *; lia. }
      rewrite Eu. cbn. eexists; reflexivity.
    + right. split; auto. unfold csr_build. fold es.
      assert (Nz : Z.of_nat (u32_sub (length es) (cm A)) = (2 ^ 32 - (Z.of_nat (cm A) - Z.of_nat (length (elems A))))%Z).
      { unfold u32_sub, is_u32, two32 in *. change (2 ^ 32)%N with 4294967296%N in *. change (2 ^ 32)%Z with 4294967296%Z.
        rewrite Les. rewrite <- (Z.mod_unique (Z.of_nat (length (elems A)) - Z.of_nat (cm A)) 4294967296 (-1) (4294967296 + (Z.of_nat (length (elems A)) - Z.of_nat (cm A)))); lia. }
      set (nz := u32_sub (length es) (cm A)) in *.
      assert (Lnz : length (filter offd es) <= nz).
      { apply Nat2Z.inj_le. rewrite Nz. unfold count in *. unfold is_u32, two32 in *. change (2 ^ 32)%N with 4294967296%N in *. change (2 ^ 32)%Z with 4294967296%Z. lia. }
      destruct (fill_loop_ok (cm A) nz es Hm Rs NDs Lnz) as [s [Es [Hi [Hci [Hv [Hdl [Hd [Hrl [Hr0 Hr]]]]]]]]].
      rewrite Es. cbn [bind]. destruct (prefix_ok (cm A) (f_rp s) Hrl Hr0) as [rp [Ep _]].
      rewrite Ep. cbn [bind]. eexists; split; [reflexivity|]. cbn [nnz]. auto.
Qed.
End Build.
