(** Dirichlet conditions (system.hpp 18-46). *)
From Coq Require Import String.
From Coq Require Import List Arith ZArith NArith Bool Lia Reals Lra Permutation.
From Verif Require Import Base AlgebraModel AlgebraSpec Coo_proofs Csr_proofs SumR.
Import ListNotations.

Section Gen.
Variable o : Ops.
Notation T := (T o).
Variable V : Type.
Variable v0 : V.
Variable vscale : V -> T -> V.
Variable vsub : V -> V -> V.
Variable vconst : T -> V.

(** unordered position {i,j} of a symmetric matrix *)
Definition ukey (i j : nat) : N := key (Nat.min i j) (Nat.max i j).

Definition dir_val (id : nat) (kv : N * V) : N * V :=
  if Nat.eqb (krow (fst kv)) (kcol (fst kv)) then kv
  else if Nat.eqb (krow (fst kv)) id || Nat.eqb (kcol (fst kv)) id then (fst kv, vconst (zero o)) else kv.

Definition b_after (l : list (N * V)) (id : nat) (value : T) (i : nat) (w : V) : V :=
  match find_key l (ukey i id) with Some a => vsub w (vscale a value) | None => w end.

Lemma dir_val_fst : forall id kv, fst (dir_val id kv) = fst kv.
Proof. intros id kv; unfold dir_val. destruct (Nat.eqb _ _); auto. destruct (_ || _); auto. Qed.

Lemma map_dir_fst : forall id l, map fst (map (dir_val id) l) = map fst l.
Proof. intros; rewrite map_map. apply map_ext. intros; apply dir_val_fst. Qed.

Lemma ukey_parts : forall i j, is_u32 i -> is_u32 j -> krow (ukey i j) = Nat.min i j /\ kcol (ukey i j) = Nat.max i j.
Proof.
  intros i j Hi Hj; unfold ukey. rewrite krow_key, kcol_key; auto;
    destruct (Nat.min_spec i j) as [[_ E]|[_ E]], (Nat.max_spec i j) as [[_ E']|[_ E']]; rewrite ?E, ?E'; auto.
Qed.

Lemma dirichlet_loop_ok : forall id value l b,
  is_u32 id -> is_u32 (length b) -> id < length b ->
  NoDup (map fst l) -> Forall (fun kv => good_key (fst kv) /\ kcol (fst kv) < length b) l ->
  exists b', dirichlet_loop o V vscale vsub vconst id value l b = Ok (map (dir_val id) l, b') /\
    length b' = length b /\
    nth_error b' id = nth_error b id /\
    forall i w, i <> id -> nth_error b i = Some w -> nth_error b' i = Some (b_after l id value i w).
Proof.
  intros id value l; induction l as [|[k w] l IH]; intros b Ui Ub Hid ND G; cbn [dirichlet_loop map].
  - exists b; repeat split; auto.
  - inversion ND; subst. inversion G; subst. destruct H3 as [Gk Kc]; cbn in Gk, Kc.
    destruct (good_key_parts k Gk) as [U1 [U2 [L Ek]]].
    unfold dirichlet_elem; cbn [fst snd]. unfold dir_val at 1; cbn [fst].
    assert (STEP : forall b1, length b1 = length b -> nth_error b1 id = nth_error b id ->
       (forall i x, i <> id -> nth_error b i = Some x ->
          nth_error b1 i = Some (if N.eqb k (ukey i id) then vsub x (vscale w value) else x)) ->
       exists b', dirichlet_loop o V vscale vsub vconst id value l b1 = Ok (map (dir_val id) l, b') /\
        length b' = length b /\ nth_error b' id = nth_error b id /\
        forall i x, i <> id -> nth_error b i = Some x -> nth_error b' i = Some (b_after ((k, w) :: l) id value i x)).
    { intros b1 L1 I1 S1. destruct (IH b1) as [b' [E [L' [I' S']]]]; auto; try (rewrite L1; auto).
      exists b'; split; auto. split; [congruence|]. split; [congruence|].
      intros i x Hi Hx. rewrite (S' i _ Hi (S1 i x Hi Hx)). unfold b_after; cbn [find_key].
      destruct (N.eqb_spec k (ukey i id)) as [E2|E2]; auto.
      assert (F : find_key l (ukey i id) = None) by (apply find_key_none; rewrite <- E2; auto). rewrite F; auto. }
    assert (KU : forall i, i < length b -> (k = ukey i id <-> (krow k = Nat.min i id /\ kcol k = Nat.max i id))).
    { intros i Hi. assert (Ui2 : is_u32 i) by (apply (is_u32_le i (length b)); auto; lia).
      split; intros E.
      - rewrite E. apply ukey_parts; auto.
      - destruct E as [E1 E2]. rewrite Ek, E1, E2. reflexivity. }
    assert (LEN : forall i x, nth_error b i = Some x -> i < length b) by (intros i x H; apply nth_error_Some; congruence).
    destruct (Nat.eqb_spec (krow k) (kcol k)) as [E|E]; cbn [bind].
    + destruct (STEP b) as [b' [E' R]]; auto.
      * intros i x Hi Hx. destruct (N.eqb_spec k (ukey i id)) as [E2|E2]; auto.
        apply KU in E2; eauto. lia.
      * rewrite E'. cbn [bind]. exists b'; split; auto.
    + destruct (Nat.eqb_spec (krow k) id) as [Er|Er]; cbn [bind orb].
      * (* row = id: b[col] -= *)
        unfold vmodify. destruct (nth_error b (kcol k)) as [x|] eqn:Ex; [|apply nth_error_None in Ex; lia].
        unfold get. rewrite Ex. cbn [bind]. rewrite set_lt by auto. cbn [bind].
        destruct (Nat.eqb_spec (kcol k) id) as [Ec|Ec]; [congruence|]. cbn [bind].
        destruct (STEP (upd b (kcol k) (vsub x (vscale w value)))) as [b' [E' R]].
        -- apply upd_length.
        -- apply nth_error_upd_other; auto.
        -- intros i y Hi Hy. destruct (Nat.eq_dec i (kcol k)) as [Ei|Ei].
           ++ subst i. rewrite nth_error_upd_same by auto. destruct (N.eqb_spec k (ukey (kcol k) id)) as [E2|E2]; [congruence|].
              exfalso; apply E2. apply KU; auto. lia.
           ++ rewrite nth_error_upd_other by auto. destruct (N.eqb_spec k (ukey i id)) as [E2|E2]; auto.
              apply KU in E2; eauto. lia.
        -- rewrite E'. cbn [bind]. exists b'; split; auto.
      * destruct (Nat.eqb_spec (kcol k) id) as [Ec|Ec]; cbn [bind].
        -- unfold vmodify. assert (Hr : krow k < length b) by lia.
           destruct (nth_error b (krow k)) as [x|] eqn:Ex; [|apply nth_error_None in Ex; lia].
           unfold get. rewrite Ex. cbn [bind]. rewrite set_lt by auto. cbn [bind].
           destruct (STEP (upd b (krow k) (vsub x (vscale w value)))) as [b' [E' R]].
           ++ apply upd_length.
           ++ apply nth_error_upd_other; auto.
           ++ intros i y Hi Hy. destruct (Nat.eq_dec i (krow k)) as [Ei|Ei].
              ** subst i. rewrite nth_error_upd_same by auto. destruct (N.eqb_spec k (ukey (krow k) id)) as [E2|E2]; [congruence|].
                 exfalso; apply E2. apply KU; auto. lia.
              ** rewrite nth_error_upd_other by auto. destruct (N.eqb_spec k (ukey i id)) as [E2|E2]; auto.
                 apply KU in E2; eauto. lia.
           ++ rewrite E'. cbn [bind]. exists b'; split; auto.
        -- destruct (STEP b) as [b' [E' R]]; auto.
           ++ intros i x Hi Hx. destruct (N.eqb_spec k (ukey i id)) as [E2|E2]; auto.
              apply KU in E2; eauto. lia.
           ++ rewrite E'. cbn [bind]. exists b'; split; auto.
Qed.

Lemma find_key_map_dir : forall id l k,
  find_key (map (dir_val id) l) k =
  match find_key l k with Some w => Some (snd (dir_val id (k, w))) | None => None end.
Proof.
  induction l as [|[k' w] l IH]; intros k; cbn [map find_key]; auto.
  destruct (dir_val id (k', w)) as [k'' w'] eqn:E.
  assert (k'' = k') by (pose proof (dir_val_fst id (k', w)) as F; rewrite E in F; auto). subst. cbn [find_key].
  destruct (N.eqb_spec k' k); [subst; rewrite E; auto|auto].
Qed.

(** well-formed system: distinct good keys inside the matrix, vector of matching length *)
Definition wf_sys (S : system V) : Prop :=
  NoDup (map fst (elems (sA V S))) /\ in_range (length (sb V S)) (elems (sA V S)) /\
  is_u32 (length (sb V S)) /\ cm (sA V S) = length (sb V S).

Definition entry_opt (S : system V) (i j : nat) : option V := find_key (elems (sA V S)) (ukey i j).

(** exact effect of one condition, for arbitrary scalars (so also for floating point), for every iteration order *)
Lemma addDirichlet_exact : forall S id value, wf_sys S -> id < length (sb V S) ->
  exists S', addDirichlet o V v0 vscale vsub vconst S id value = Ok S' /\ wf_sys S' /\
    length (sb V S') = length (sb V S) /\
    (forall i j, i < length (sb V S) -> j < length (sb V S) ->
       entry_opt S' i j = if Nat.eqb i j
                          then (if Nat.eqb i id then Some (vconst (one o)) else entry_opt S i j)
                          else if Nat.eqb i id || Nat.eqb j id
                               then match entry_opt S i j with Some _ => Some (vconst (zero o)) | None => None end
                               else entry_opt S i j) /\
    nth_error (sb V S') id = Some (vconst value) /\
    (forall i w, i <> id -> nth_error (sb V S) i = Some w ->
       nth_error (sb V S') i = Some (match entry_opt S i id with Some a => vsub w (vscale a value) | None => w end)).
Proof.
  intros [A b] id value [ND [R [Ub Cm]]] Hid. cbn [sA sb] in *.
  assert (Ui : is_u32 id) by (apply (is_u32_le id (length b)); auto; lia).
  destruct (dirichlet_loop_ok id value (elems A) b Ui Ub Hid ND R) as [b' [E [L' [I' S']]]].
  unfold addDirichlet. cbn [sA sb]. rewrite E. cbn [bind].
  destruct (coo_modify_spec v0 (mkCoo (map (dir_val id) (elems A)) (cm A)) id id (fun _ => vconst (one o)))
    as [[LL _]|[_ [A' [EA [Mm [F [Oth [ND' IN]]]]]]]]; [lia|].
  rewrite EA. cbn [bind]. rewrite set_lt by lia. cbn [bind elems cm] in *. eexists; split; [reflexivity|].
  cbn [sA sb].
  assert (KEYS : forall i j, i < length b -> j < length b -> find_key (elems A') (ukey i j) =
     if Nat.eqb i j
                          then (if Nat.eqb i id then Some (vconst (one o)) else find_key (elems A) (ukey i j))
                          else if Nat.eqb i id || Nat.eqb j id
                               then match find_key (elems A) (ukey i j) with Some _ => Some (vconst (zero o)) | None => None end
                               else find_key (elems A) (ukey i j)).
  { intros i j Hi Hj.
    assert (U1 : is_u32 i) by (apply (is_u32_le i (length b)); auto; lia).
    assert (U2 : is_u32 j) by (apply (is_u32_le j (length b)); auto; lia).
    destruct (ukey_parts i j U1 U2) as [P1 P2].
    destruct (N.eq_dec (ukey i j) (key id id)) as [Ek|Ek].
    - assert (i = id /\ j = id).
      { rewrite Ek in P1, P2. rewrite krow_key in P1 by auto. rewrite kcol_key in P2 by auto. lia. }
      destruct H; subst. rewrite !Nat.eqb_refl. rewrite Ek, F. auto.
    - rewrite Oth by auto. rewrite find_key_map_dir. 
      destruct (Nat.eqb_spec i j) as [Eij|Eij].
      + subst j. destruct (Nat.eqb_spec i id) as [Ei|Ei].
        * exfalso; apply Ek. subst. unfold ukey. rewrite Nat.min_id, Nat.max_id; auto.
        * destruct (find_key (elems A) (ukey i i)) as [w|]; auto. unfold dir_val; cbn [fst]. rewrite P1, P2.
          rewrite Nat.min_id, Nat.max_id, Nat.eqb_refl; auto.
      + destruct (find_key (elems A) (ukey i j)) as [w|]; [|destruct (_ || _); auto].
        unfold dir_val; cbn [fst]. rewrite P1, P2.
        destruct (Nat.eqb_spec (Nat.min i j) (Nat.max i j)); [lia|].
        destruct (Nat.eqb_spec (Nat.min i j) id), (Nat.eqb_spec (Nat.max i j) id), (Nat.eqb_spec i id), (Nat.eqb_spec j id); cbn [orb snd]; auto; lia. }
  split; [|split; [|split; [|split]]].
  - unfold wf_sys; cbn [sA sb]. rewrite upd_length, L'. split; [|split; [|split]].
    + apply ND'. rewrite map_dir_fst; auto.
    + unfold in_range. rewrite Forall_forall. intros [k w] Hk. cbn [fst].
      assert (K : In k (map fst (elems A'))) by (apply (in_map fst) in Hk; auto).
      apply IN in K. destruct K as [K|K].
      * subst k. split; [exists id, id; auto|]. rewrite kcol_key; auto.
      * rewrite map_dir_fst in K. apply in_map_iff in K. destruct K as [[k' w'] [Ek I]]. cbn in Ek; subst k'.
        unfold in_range in R. rewrite Forall_forall in R. apply (R (k, w')); auto.
    + auto.
    + congruence.
  - rewrite upd_length; auto.
  - intros i j Hi Hj. unfold entry_opt; cbn [sA]. apply KEYS; auto.
  - rewrite nth_error_upd_same; auto. lia.
  - intros i w Hi Hw. rewrite nth_error_upd_other by auto. rewrite (S' i w Hi Hw). unfold b_after, entry_opt; cbn [sA]. auto.
Qed.

(** the outcome does not depend on the iteration order of the hash map *)
Lemma in_range_perm : forall sz (l1 l2 : list (N * V)), Permutation l1 l2 -> in_range sz l1 -> in_range sz l2.
Proof. intros sz l1 l2 P R. unfold in_range in *. rewrite Forall_forall in *. intros x Hx. apply R. eapply Permutation_in; [apply Permutation_sym; eauto|auto]. Qed.

Lemma addDirichlet_order : forall A1 A2 b id value,
  wf_sys (mkSys V A1 b) -> id < length b -> Permutation (elems A1) (elems A2) -> cm A2 = cm A1 ->
  exists S1 S2, addDirichlet o V v0 vscale vsub vconst (mkSys V A1 b) id value = Ok S1 /\
    addDirichlet o V v0 vscale vsub vconst (mkSys V A2 b) id value = Ok S2 /\ sys_equiv S1 S2.
Proof.
  intros A1 A2 b id value W Hid P Cm.
  assert (W2 : wf_sys (mkSys V A2 b)).
  { destruct W as [ND [R [U C]]]; cbn [sA sb] in *. split; [|split; [|split]]; cbn [sA sb]; auto.
    - eapply Permutation_NoDup; [apply Permutation_map; eauto|auto].
    - eapply in_range_perm; eauto.
    - congruence. }
  destruct (addDirichlet_exact _ id value W Hid) as [S1 [E1 [W1' [L1 [EN1 [I1 B1]]]]]].
  destruct (addDirichlet_exact _ id value W2 Hid) as [S2 [E2 [W2' [L2 [EN2 [I2 B2]]]]]].
  exists S1, S2. split; auto. split; auto. cbn [sb] in *.
  assert (FK : forall k, find_key (elems A1) k = find_key (elems A2) k) by (intros; apply find_key_perm; auto; apply W).
  split; [|split].
  - apply nth_error_ext.
    intros i. destruct (Nat.eq_dec i id) as [Ei|Ei]; [subst; congruence|].
    destruct (nth_error b i) as [w|] eqn:Ew.
    + rewrite (B1 i w Ei Ew), (B2 i w Ei Ew). unfold entry_opt; cbn [sA]. rewrite FK; auto.
    + assert (nth_error (sb V S1) i = None) by (apply nth_error_None; rewrite L1; apply nth_error_None; auto).
      assert (nth_error (sb V S2) i = None) by (apply nth_error_None; rewrite L2; apply nth_error_None; auto). congruence.
  - destruct W1' as [_ [_ [_ C1]]], W2' as [_ [_ [_ C2]]]. congruence.
  - intros k.
    (* a key that is present in either map is the unordered key of its own position *)
    assert (G : forall S k w, wf_sys S -> find_key (elems (sA V S)) k = Some w ->
              k = ukey (krow k) (kcol k) /\ krow k < length (sb V S) /\ kcol k < length (sb V S)).
    { intros S k' w' [_ [R [_ _]]] F. apply find_key_in in F. unfold in_range in R. rewrite Forall_forall in R.
      destruct (R _ F) as [Gk Kc]; cbn in Gk, Kc. destruct (good_key_parts _ Gk) as [_ [_ [L Ek]]].
      unfold ukey. rewrite Nat.min_l, Nat.max_r by auto. split; auto. split; lia. }
    destruct (find_key (elems (sA V S1)) k) as [w|] eqn:F1.
    + destruct (G S1 k w W1' F1) as [Ek [K1 K2]]. rewrite L1 in *.
      rewrite Ek in F1 |- *. symmetry. pose proof (EN1 _ _ K1 K2) as Q1. pose proof (EN2 _ _ K1 K2) as Q2.
      unfold entry_opt in *; cbn [sA] in *. rewrite Q2. rewrite <- F1, Q1. rewrite FK; auto.
    + destruct (find_key (elems (sA V S2)) k) as [w|] eqn:F2; auto.
      destruct (G S2 k w W2' F2) as [Ek [K1 K2]]. rewrite L2 in *.
      rewrite Ek in F1, F2. pose proof (EN1 _ _ K1 K2) as Q1. pose proof (EN2 _ _ K1 K2) as Q2.
      unfold entry_opt in *; cbn [sA] in *. rewrite FK in Q1. congruence.
Qed.

(** out-of-range node *)
Lemma addDirichlet_oob : forall S id value, wf_sys S -> length (sb V S) <= id -> is_u32 id ->
  is_ub (addDirichlet o V v0 vscale vsub vconst S id value).
Proof.
  intros [A b] id value [ND [R [Ub Cm]]] Hid Ui. cbn [sA sb] in *. unfold addDirichlet. cbn [sA sb].
  assert (LP : forall l, Forall (fun kv : N * V => good_key (fst kv) /\ kcol (fst kv) < length b) l ->
     dirichlet_loop o V vscale vsub vconst id value l b = Ok (l, b)).
  { induction l as [|[k w] l IH]; intros G; cbn [dirichlet_loop]; auto. inversion G; subst.
    destruct H1 as [Gk Kc]; cbn in Gk, Kc. destruct (good_key_parts k Gk) as [_ [_ [L _]]].
    unfold dirichlet_elem; cbn [fst snd].
    destruct (Nat.eqb_spec (krow k) (kcol k)); cbn [bind].
    - rewrite IH by auto. auto.
    - destruct (Nat.eqb_spec (krow k) id); [lia|]. cbn [bind]. destruct (Nat.eqb_spec (kcol k) id); [lia|]. cbn [bind].
      rewrite IH by auto. auto. }
  rewrite (LP (elems A) R). cbn [bind].
  destruct (coo_modify_spec v0 (mkCoo (elems A) (cm A)) id id (fun _ => vconst (one o))) as [[LL _]|[_ [A' [EA _]]]]; [lia|].
  rewrite EA. cbn [bind]. destruct (set_ge _ b id (vconst value) Hid) as [s Es]. rewrite Es. eexists; reflexivity.
Qed.
End Gen.

(** ** Exact arithmetic *)
Local Open Scope R_scope.


(** entry of the symmetric matrix of a system; 0 when never touched *)
Definition sent (S : rsys) (i j : nat) : R := value 0 (sA R S) i j.

Lemma sent_opt : forall S i j, sent S i j = match entry_opt R S i j with Some v => v | None => 0 end.
Proof. reflexivity. Qed.
Ltac fsent := repeat match goal with |- context [value 0 (sA R ?X)] => change (value 0 (sA R X)) with (sent X) end.
Lemma sent_sym : forall S i j, sent S i j = sent S j i.
Proof. intros; unfold sent, value. rewrite Nat.min_comm, Nat.max_comm; auto. Qed.

Lemma dDirichlet_ok : forall (S : rsys) (id : nat) (v : R), wf_sys R S -> (id < sdim S)%nat ->
  exists S', dDirichlet ROps S id v = Ok S' /\ wf_sys R S' /\ sdim S' = sdim S /\
    (forall i j, (i < sdim S)%nat -> (j < sdim S)%nat ->
       sent S' i j = if Nat.eqb i id then (if Nat.eqb j id then 1 else 0) else if Nat.eqb j id then 0 else sent S i j) /\
    (forall i, (i < sdim S)%nat -> vget (sb R S') i = if Nat.eqb i id then v else vget (sb R S) i - sent S i id * v).
Proof.
  intros S id v W Hid.
  destruct (addDirichlet_exact ROps R 0 (fun a d => a * d) Rminus (fun d => d) S id v W Hid) as [S' [E [W' [L [EN [I B]]]]]].
  exists S'; split; [exact E|]. split; auto. split; auto. split.
  - intros i j Hi Hj. rewrite !sent_opt. rewrite EN by auto. cbn [zero one ROps].
    destruct (Nat.eqb_spec i j) as [Eij|Eij], (Nat.eqb_spec i id) as [Ei|Ei], (Nat.eqb_spec j id) as [Ej|Ej]; subst; cbn [orb]; auto; try congruence.
    + destruct (entry_opt R S id j); auto.
    + destruct (entry_opt R S i id); auto.
  - intros i Hi. unfold vget. destruct (Nat.eqb_spec i id) as [Ei|Ei].
    + subst. erewrite nth_error_nth; eauto.
    + destruct (nth_error (sb R S) i) as [w|] eqn:Ew; [|apply nth_error_None in Ew; unfold sdim in Hi; lia].
      rewrite (nth_error_nth _ _ 0 (B i w Ei Ew)). rewrite (nth_error_nth _ _ 0 Ew). rewrite sent_opt.
      destruct (entry_opt R S i id); [reflexivity|ring].
Qed.

(** C14 *)
Lemma dirichlet_solutions : forall (S : rsys) (id : nat) (v : R), wf_sys R S -> (id < sdim S)%nat ->
  exists S', dDirichlet ROps S id v = Ok S' /\ sdim S' = sdim S /\
    forall x, solves S' x <-> (x id = v /\ forall i, (i < sdim S)%nat -> i <> id -> row_eq S x i).
Proof.
  intros S id v W Hid. destruct (dDirichlet_ok S id v W Hid) as [S' [E [W' [L [EN B]]]]].
  exists S'; split; auto. split; auto. intros x.
  assert (RID : row_eq S' x id <-> x id = v).
  { unfold row_eq; fsent. rewrite L, B, Nat.eqb_refl by auto.
    rewrite (sumn_single (sdim S) id); auto.
    - rewrite EN, Nat.eqb_refl by auto. split; intros H; lra.
    - intros j Hj Ej. rewrite EN, Nat.eqb_refl by auto. apply Nat.eqb_neq in Ej; rewrite Ej. ring. }
  assert (ROW : forall i, (i < sdim S)%nat -> i <> id -> x id = v -> (row_eq S' x i <-> row_eq S x i)).
  { intros i Hi Ei Hx. unfold row_eq; fsent. rewrite L, B by auto. apply Nat.eqb_neq in Ei as Ei'. rewrite Ei'.
    assert (SUM : sumn (sdim S) (fun j => sent S i j * x j) = sumn (sdim S) (fun j => sent S' i j * x j) + sent S i id * x id).
    { rewrite <- (sumn_delta (sdim S) id (fun j => sent S i j * x j)) at 1 by auto. rewrite <- sumn_plus. apply sumn_ext. intros j Hj.
      rewrite EN, Ei' by auto. destruct (Nat.eqb j id); ring. }
    rewrite SUM, Hx. split; intros H; lra. }
  split.
  - intros H. assert (Hx : x id = v) by (apply RID, H; rewrite L; auto). split; auto.
    intros i Hi Ei. apply ROW; auto. apply H. rewrite L; auto.
  - intros [Hx H] i Hi. rewrite L in Hi. destruct (Nat.eq_dec i id) as [Ei|Ei].
    + subst i. apply RID; auto.
    + apply ROW; auto.
Qed.

Lemma dirichlet_posdef : forall (S : rsys) (id : nat) (v : R) S', wf_sys R S -> (id < sdim S)%nat ->
  dDirichlet ROps S id v = Ok S' -> posdef (sdim S) (sent S) -> posdef (sdim S') (sent S').
Proof.
  intros S id v S' W Hid E PD x [i0 [Hi0 Hx]].
  destruct (dDirichlet_ok S id v W Hid) as [S'' [E' [W' [L [EN B]]]]]. rewrite E in E'; inversion E'; subst S''.
  rewrite L in *.
  set (y := fun i => if Nat.eqb i id then 0 else x i).
  assert (Q : quad (sdim S) (sent S') x = x id * x id + quad (sdim S) (sent S) y).
  { unfold quad. 
    rewrite <- (sumn_delta (sdim S) id (fun i => x i * x i)) by auto. rewrite <- sumn_plus. apply sumn_ext. intros i Hi.
    destruct (Nat.eqb_spec i id) as [Ei|Ei].
    - subst i. rewrite (sumn_single (sdim S) id); auto.
      + rewrite EN, Nat.eqb_refl by auto. rewrite sumn_0; [ring|]. intros j Hj. unfold y. rewrite Nat.eqb_refl. ring.
      + intros j Hj Ej. rewrite EN, Nat.eqb_refl by auto. apply Nat.eqb_neq in Ej; rewrite Ej. ring.
    - rewrite Rplus_0_l. apply sumn_ext. intros j Hj. rewrite EN by auto. unfold y. apply Nat.eqb_neq in Ei; rewrite Ei.
      destruct (Nat.eqb j id); ring. }
  rewrite Q. destruct (Req_dec (x id) 0) as [Z|Z].
  - assert (0 < quad (sdim S) (sent S) y).
    { apply PD. exists i0; split; auto. unfold y. destruct (Nat.eqb_spec i0 id); [congruence|auto]. }
    rewrite Z. lra.
  - assert (0 <= quad (sdim S) (sent S) y).
    { destruct (all_zero_dec (sdim S) y) as [[k [Hk Ny]]|Al].
      - left. apply PD; eauto.
      - right. unfold quad. symmetry. apply sumn_0. intros i Hi. apply sumn_0. intros j Hj. rewrite (Al i Hi). ring. }
    nra.
Qed.

Lemma same_intro : forall S1 S2, sdim S1 = sdim S2 ->
  (forall i j, (i < sdim S1)%nat -> (j < sdim S1)%nat -> sent S1 i j = sent S2 i j) -> sb R S1 = sb R S2 -> same_system S1 S2.
Proof. intros; split; auto. Qed.
Lemma same_elim : forall S1 S2, same_system S1 S2 -> sdim S1 = sdim S2 /\
  (forall i j, (i < sdim S1)%nat -> (j < sdim S1)%nat -> sent S1 i j = sent S2 i j) /\ sb R S1 = sb R S2.
Proof. intros S1 S2 H; exact H. Qed.

Lemma vget_list_ext : forall (a b : list R), length a = length b -> (forall i, (i < length a)%nat -> vget a i = vget b i) -> a = b.
Proof. intros a b L H. apply (nth_ext a b 0 0); auto. Qed.

Lemma dirichlet_commute : forall (S : rsys) (i1 : nat) (v1 : R) (i2 : nat) (v2 : R), wf_sys R S -> (i1 < sdim S)%nat -> (i2 < sdim S)%nat -> i1 <> i2 ->
  exists Sa Sb, (T <- dDirichlet ROps S i1 v1 ;; dDirichlet ROps T i2 v2) = Ok Sa /\
    (T <- dDirichlet ROps S i2 v2 ;; dDirichlet ROps T i1 v1) = Ok Sb /\ same_system Sa Sb.
Proof.
  intros S i1 v1 i2 v2 W H1 H2 NE.
  destruct (dDirichlet_ok S i1 v1 W H1) as [A [EA [WA [LA [NA BA]]]]].
  destruct (dDirichlet_ok S i2 v2 W H2) as [B [EB [WB [LB [NB BB]]]]].
  destruct (dDirichlet_ok A i2 v2 WA ltac:(rewrite LA; auto)) as [A2 [EA2 [WA2 [LA2 [NA2 BA2]]]]].
  destruct (dDirichlet_ok B i1 v1 WB ltac:(rewrite LB; auto)) as [B2 [EB2 [WB2 [LB2 [NB2 BB2]]]]].
  exists A2, B2. rewrite EA, EB; cbn [bind]. split; auto. split; auto. 
  rewrite LA in *. rewrite LB in *. apply same_intro; [congruence| |]; rewrite ?LA2.
  - intros i j Hi Hj. rewrite NA2, NB2, NA, NB by auto.
    destruct (Nat.eqb_spec i i1), (Nat.eqb_spec i i2), (Nat.eqb_spec j i1), (Nat.eqb_spec j i2); subst; auto; congruence.
  - assert (La : length (sb R A2) = sdim S) by exact LA2. assert (Lb : length (sb R B2) = sdim S) by exact LB2.
    apply vget_list_ext; [congruence|]. rewrite La. intros i Hi. rewrite BA2, BB2, BA, BB, NA, NB by auto.
    apply Nat.eqb_neq in NE as F1. assert (F2 : Nat.eqb i2 i1 = false) by (apply Nat.eqb_neq; auto).
    destruct (Nat.eqb_spec i i1), (Nat.eqb_spec i i2); subst; try congruence; rewrite ?Nat.eqb_refl, ?F1, ?F2; ring.
Qed.

(** exact effect of setting the same node twice: the second value wins at the node, but the other right-hand
    sides keep the contribution of the first value *)
Lemma dirichlet_reset : forall (S : rsys) (id : nat) (v1 v2 : R), wf_sys R S -> (id < sdim S)%nat ->
  exists S2 S', (T <- dDirichlet ROps S id v1 ;; dDirichlet ROps T id v2) = Ok S2 /\
    dDirichlet ROps S id v2 = Ok S' /\
    (same_system S2 S' <-> (forall i, (i < sdim S)%nat -> i <> id -> sent S i id * (v1 - v2) = 0)).
Proof.
  intros S id v1 v2 W H1.
  destruct (dDirichlet_ok S id v1 W H1) as [A [EA [WA [LA [NA BA]]]]].
  destruct (dDirichlet_ok S id v2 W H1) as [B [EB [WB [LB [NB BB]]]]].
  destruct (dDirichlet_ok A id v2 WA ltac:(rewrite LA; auto)) as [A2 [EA2 [WA2 [LA2 [NA2 BA2]]]]].
  exists A2, B. rewrite EA; cbn [bind]. split; auto. split; auto. rewrite LA in *.
  assert (La : length (sb R A2) = sdim S) by exact LA2. assert (Lb : length (sb R B) = sdim S) by exact LB.
  assert (VA : forall i, (i < sdim S)%nat -> i <> id -> vget (sb R A2) i = vget (sb R S) i - sent S i id * v1).
  { intros i Hi NE. rewrite BA2, BA, NA by auto. apply Nat.eqb_neq in NE; rewrite NE, Nat.eqb_refl. ring. }
  assert (VB : forall i, (i < sdim S)%nat -> i <> id -> vget (sb R B) i = vget (sb R S) i - sent S i id * v2).
  { intros i Hi NE. rewrite BB by auto. apply Nat.eqb_neq in NE; rewrite NE. ring. }
  split.
  - intros [_ [_ E]] i Hi NE. pose proof (VA i Hi NE) as P. rewrite E, (VB i Hi NE) in P. lra.
  - intros H. apply same_intro; [congruence| |]; rewrite ?LA2.
    + intros i j Hi Hj. rewrite NA2, NB, NA by auto. destruct (Nat.eqb i id), (Nat.eqb j id); auto.
    + apply vget_list_ext; [congruence|]. rewrite La. intros i Hi. destruct (Nat.eq_dec i id) as [E|E].
      * subst. rewrite BA2, BB by auto. rewrite Nat.eqb_refl; auto.
      * rewrite VA, VB by auto. pose proof (H i Hi E). lra.
Qed.

Lemma dirichlet_idempotent : forall (S : rsys) (id : nat) (v : R), wf_sys R S -> (id < sdim S)%nat ->
  exists S1 S2, dDirichlet ROps S id v = Ok S1 /\ dDirichlet ROps S1 id v = Ok S2 /\ same_system S2 S1.
Proof.
  intros S id v W H. destruct (dirichlet_reset S id v v W H) as [S2 [S' [E1 [E2 I]]]].
  exists S', S2. rewrite E2 in E1; cbn [bind] in E1. split; auto. split; auto. apply I. intros; ring.
Qed.

(** any list of conditions on distinct nodes: every order gives the same equations *)
Lemma same_system_refl : forall S, same_system S S.
Proof. intros; repeat split; auto. Qed.
Lemma same_system_trans : forall A B C, same_system A B -> same_system B C -> same_system A C.
Proof. intros A B C [L1 [E1 B1]] [L2 [E2 B2]]. split; [congruence|]. split; [|congruence]. intros i j Hi Hj. rewrite E1, E2; auto; rewrite <- L1; auto. Qed.

Lemma dDirichlet_same : forall A B (id : nat) (v : R), wf_sys R A -> wf_sys R B -> same_system A B -> (id < sdim A)%nat ->
  exists A' B', dDirichlet ROps A id v = Ok A' /\ dDirichlet ROps B id v = Ok B' /\ same_system A' B' /\
     wf_sys R A' /\ wf_sys R B' /\ sdim A' = sdim A.
Proof.
  intros A B id v WA WB SS Hid. apply same_elim in SS. destruct SS as [L [E Bv]].
  destruct (dDirichlet_ok A id v WA Hid) as [A' [EA [WA' [LA [NA BA]]]]].
  destruct (dDirichlet_ok B id v WB ltac:(rewrite <- L; auto)) as [B' [EB [WB' [LB [NB BB]]]]].
  exists A', B'. split; auto. split; auto. split; [|auto]. 
  apply same_intro; [congruence| |]; rewrite ?LA; rewrite <- L in *.
  - intros i j Hi Hj. rewrite NA, NB, E by auto. auto.
  - apply vget_list_ext; [unfold sdim in *; congruence|]. unfold sdim in LA. rewrite LA. intros i Hi. rewrite BA, BB, E, Bv by auto. auto.
Qed.

Lemma dirichlet_all_same : forall l A B, wf_sys R A -> wf_sys R B -> same_system A B ->
  Forall (fun p => (fst p < sdim A)%nat) l ->
  exists A' B', dirichlet_all A l = Ok A' /\ dirichlet_all B l = Ok B' /\ same_system A' B' /\ wf_sys R A' /\ wf_sys R B'.
Proof.
  induction l as [|[id v] l IH]; intros A B WA WB SS F; cbn [dirichlet_all].
  - exists A, B; auto.
  - inversion F; subst; cbn [fst] in *. destruct (dDirichlet_same A B id v) as [A' [B' [EA [EB [SS' [WA' [WB' L]]]]]]]; auto.
    rewrite EA, EB; cbn [bind]. apply IH; auto. rewrite L; auto.
Qed.

Lemma dirichlet_all_perm : forall l1 l2, Permutation l1 l2 -> NoDup (map fst l1) ->
  forall S, wf_sys R S -> Forall (fun p => (fst p < sdim S)%nat) l1 ->
  exists A B, dirichlet_all S l1 = Ok A /\ dirichlet_all S l2 = Ok B /\ same_system A B.
Proof.
  intros l1 l2 P; induction P as [|[id v] l l' P IH|[i1 v1] [i2 v2] l|l l' l'' P1 IH1 P2 IH2]; intros ND S W F.
  - exists S, S; repeat split; auto.
  - inversion ND; subst. inversion F; subst; cbn [fst] in *. cbn [dirichlet_all].
    destruct (dDirichlet_ok S id v W H3) as [A' [EA [WA [LA _]]]]. rewrite EA; cbn [bind].
    apply IH; auto. rewrite LA; auto.
  - cbn [dirichlet_all]. cbn [map fst] in ND. inversion ND as [|x lx NI ND']; subst. inversion F as [|y ly F1 F']; subst. inversion F' as [|z lz F2 F'']; subst. cbn [fst] in *.
    assert (NE : i2 <> i1) by (intro E; apply NI; subst; cbn; auto).
    destruct (dDirichlet_ok S i2 v2 W F1) as [A [EA [WA [LA _]]]].
    destruct (dDirichlet_ok S i1 v1 W F2) as [B [EB [WB [LB _]]]].
    destruct (dDirichlet_ok A i1 v1 WA ltac:(rewrite LA; auto)) as [A2 [EA2 [WA2 [LA2 _]]]].
    destruct (dDirichlet_ok B i2 v2 WB ltac:(rewrite LB; auto)) as [B2 [EB2 [WB2 [LB2 _]]]].
    destruct (dirichlet_commute S i2 v2 i1 v1 W F1 F2 NE) as [Sa [Sb [E1 [E2 SS]]]].
    rewrite EA in E1; rewrite EB in E2; cbn [bind] in E1, E2. rewrite EA2 in E1; rewrite EB2 in E2. inversion E1; inversion E2; subst Sa Sb.
    rewrite EA, EB; cbn [bind]. rewrite EA2, EB2; cbn [bind].
    destruct (dirichlet_all_same l A2 B2 WA2 WB2 SS) as [A' [B' [Ea [Eb [SS' _]]]]].
    { rewrite LA2, LA; auto. }
    exists A', B'; auto.
  - destruct (IH1 ND S W F) as [A [B [EA [EB SS]]]].
    destruct (IH2 (Permutation_NoDup (Permutation_map fst P1) ND) S W) as [B' [C [EB' [EC SS2]]]].
    { rewrite Forall_forall in *. intros x Hx. apply F. eapply Permutation_in; [apply Permutation_sym; eauto|auto]. }
    rewrite EB in EB'; inversion EB'; subst B'. exists A, C; split; auto. split; auto. eapply same_system_trans; eauto.
Qed.

Lemma dirichlet_all_solutions : forall l S, NoDup (map fst l) -> wf_sys R S -> Forall (fun p => (fst p < sdim S)%nat) l ->
  exists S', dirichlet_all S l = Ok S' /\ sdim S' = sdim S /\
    forall x, solves S' x <-> ((forall id v, In (id, v) l -> x id = v) /\
                               forall i, (i < sdim S)%nat -> ~ In i (map fst l) -> row_eq S x i).
Proof.
  induction l as [|[id v] l IH]; intros S ND W F; cbn [dirichlet_all].
  - exists S; split; auto. split; auto. intros x; split.
    + intros H; split; [intros ? ? []|]. intros i Hi _. apply H; auto.
    + intros [_ H] i Hi. apply H; auto.
  - inversion ND; subst. inversion F; subst; cbn [fst map] in *.
    destruct (dDirichlet_ok S id v W H3) as [A [EA [WA [LA [NA BA]]]]]. rewrite EA; cbn [bind].
    destruct (IH A H2 WA) as [S' [E' [L' SOL]]]; [rewrite LA; auto|].
    exists S'; split; auto. split; [congruence|]. intros x. rewrite SOL. rewrite LA.
    destruct (dirichlet_solutions S id v W H3) as [A' [EA' [_ SA]]]. rewrite EA in EA'; inversion EA'; subst A'.
    assert (RID : row_eq A x id <-> x id = v).
    { unfold row_eq; fsent. rewrite LA, BA, Nat.eqb_refl by auto.
      rewrite (sumn_single (sdim S) id); auto.
      - rewrite NA, Nat.eqb_refl by auto. split; intros H; lra.
      - intros j Hj Ej. rewrite NA, Nat.eqb_refl by auto. apply Nat.eqb_neq in Ej; rewrite Ej. ring. }
    assert (ROW : forall i, (i < sdim S)%nat -> i <> id -> x id = v -> (row_eq A x i <-> row_eq S x i)).
    { intros i Hi Ei Hx. unfold row_eq; fsent. rewrite LA, BA by auto. apply Nat.eqb_neq in Ei as Ei'. rewrite Ei'.
      assert (SUM : sumn (sdim S) (fun j => sent S i j * x j) = sumn (sdim S) (fun j => sent A i j * x j) + sent S i id * x id).
      { rewrite <- (sumn_delta (sdim S) id (fun j => sent S i j * x j)) at 1 by auto. rewrite <- sumn_plus. apply sumn_ext. intros j Hj.
        rewrite NA, Ei' by auto. destruct (Nat.eqb j id); ring. }
      rewrite SUM, Hx. split; intros H; lra. }
    split.
    + intros [V RR]. assert (Hx : x id = v) by (apply RID, RR; auto). split.
      * intros i w [E|I]; [inversion E; subst; auto|apply V; auto].
      * intros i Hi NI. apply (ROW i Hi); [intro; subst; apply NI; cbn; auto|auto|apply RR; auto]. intro; apply NI; cbn; auto.
    + intros [V RR]. assert (Hx : x id = v) by (apply V; cbn; auto). split.
      * intros i w I; apply V; cbn; auto.
      * intros i Hi NI. destruct (Nat.eq_dec i id) as [E|E]; [subst i; apply RID; auto|].
        apply ROW; auto. apply RR; auto. cbn; intros [E2|E2]; congruence.
Qed.
