(** The elimination loop of the force and torque integrals, for every iteration order of the hash map. *)
From Coq Require Import String.
From Coq Require Import List Arith ZArith NArith Bool Lia Permutation.
From Coq Require Import Reals Lra.
From Verif Require Import Base SumR AlgebraModel AlgebraSpec SolversModel SolversSpec GeometryModel GeometrySpec DrawingModel DrawingSpec MeshModel MeshSpec ForceModel ForceSpec.
From Verif Require Import Coo_proofs Csr_proofs Algebra_bridge.
Import ListNotations.
Local Open Scope R_scope.

Definition in_key (n : nat) (kv : N * R) : Prop := exists i j, (i <= j < n)%nat /\ fst kv = key i j.
Section Hold.
Variable n : nat.
Variable fl : list flags.
Hypothesis U : is_u32 n.
Hypothesis LF : length fl = n.

Definition hv (kv : N * R) : N * R :=
  (fst kv, if held fl (krow (fst kv)) then (if Nat.eqb (kcol (fst kv)) (krow (fst kv)) then 1 else 0) else snd kv).
Definition hb (r : nat) (x : R) (kv : N * R) : R :=
  if Nat.eqb (kcol (fst kv)) r then
    (if zero_node fl (krow (fst kv)) then (if Nat.eqb r (krow (fst kv)) then 0 else x)
     else if one_node fl (krow (fst kv)) then (if Nat.eqb r (krow (fst kv)) then 1 else x - snd kv) else x)
  else x.
Lemma hold_loop_eq : forall (l : list (N * R)) (b : list R), Forall (in_key n) l -> length b = n ->
  exists b', hold_loop ROps fl l b = Ok (map hv l, b') /\ length b' = n /\ forall r, (r < n)%nat -> vget b' r = fold_left (hb r) l (vget b r).
Proof using U LF.
  induction l as [|[k v] l IH]; intros b H L.
  - exists b. cbn. auto.
  - destruct (Forall_inv H) as [i [j [Hij E]]]. pose proof (Forall_inv_tail H) as Hl. cbn [fst] in E. cbn [hold_loop].
    assert (Ui : is_u32 i) by (eapply is_u32_le; [|exact U]; lia). assert (Uj : is_u32 j) by (eapply is_u32_le; [|exact U]; lia).
    assert (Kr : krow k = i) by (rewrite E; apply krow_key; auto). assert (Kc : kcol k = j) by (rewrite E; apply kcol_key; auto).
    rewrite Kr, Kc. rewrite (get_lt _ fl i (false, false, true, false)) by lia. cbn [bind]. change (nth i fl (false, false, true, false)) with (flag_at fl i).
    assert (X : exists b1, (if negb (f_outer (flag_at fl i)) || f_hole (flag_at fl i)
         then if Nat.eqb j i then (b0 <- set b j (zero ROps);; Ok (one ROps, b0)) else Ok (zero ROps, b)
         else if f_closed (flag_at fl i) then if Nat.eqb j i then (b0 <- set b j (one ROps);; Ok (one ROps, b0))
              else (x <- get b j;; b0 <- set b j (sub ROps x v);; Ok (zero ROps, b0)) else Ok (v, b)) = Ok (snd (hv (k, v)), b1) /\
         length b1 = n /\ forall r, (r < n)%nat -> vget b1 r = hb r (vget b r) (k, v)).
    { unfold hv, hb. cbn [fst snd]. rewrite Kr, Kc. unfold held, one_node. change (negb (f_outer (flag_at fl i)) || f_hole (flag_at fl i)) with (zero_node fl i).
      assert (ST : forall z : R, set b j z = Ok (upd b j z)) by (intros z; apply (set_lt R b j z); lia).
      destruct (zero_node fl i); cbn [orb negb andb].
      - destruct (Nat.eqb_spec j i) as [->|N].
        + change (zero ROps) with 0. rewrite ST. cbn [bind]. eexists. split; [reflexivity|]. split; [rewrite upd_length; auto|]. intros r Hr.
          unfold vget. rewrite nth_upd by lia. destruct (Nat.eqb_spec r i) as [->|]; [rewrite !Nat.eqb_refl; auto|]. destruct (Nat.eqb_spec i r); auto; congruence.
        + eexists. split; [reflexivity|]. split; auto. intros r Hr. destruct (Nat.eqb_spec j r) as [->|]; auto. destruct (Nat.eqb_spec r i); auto; congruence.
      - destruct (f_closed (flag_at fl i)).
        + destruct (Nat.eqb_spec j i) as [->|N].
          * change (one ROps) with 1. rewrite ST. cbn [bind]. eexists. split; [reflexivity|]. split; [rewrite upd_length; auto|]. intros r Hr.
            unfold vget. rewrite nth_upd by lia. destruct (Nat.eqb_spec r i) as [->|]; [rewrite !Nat.eqb_refl; auto|]. destruct (Nat.eqb_spec i r); auto; congruence.
          * rewrite (get_lt R b j 0) by lia. cbn [bind]. rewrite ST. cbn [bind]. eexists. split; [reflexivity|]. split; [rewrite upd_length; auto|]. intros r Hr.
            unfold vget. rewrite nth_upd by lia. destruct (Nat.eqb_spec r j) as [->|N2].
            -- rewrite Nat.eqb_refl. destruct (Nat.eqb_spec j i); [congruence|]. reflexivity.
            -- destruct (Nat.eqb_spec j r); auto; congruence.
        + eexists. split; [reflexivity|]. split; auto. intros r Hr. destruct (Nat.eqb j r); auto. }
    destruct X as [b1 [X [L1 V1]]]. cbn [T ROps] in X |- *. rewrite X. cbn [bind].
    destruct (IH b1 Hl L1) as [b2 [E2 [L2 V2]]]. rewrite E2. cbn [bind map]. exists b2. split; [|split; auto].
    + unfold hv at 2. cbn [fst snd]. reflexivity.
    + intros r Hr. rewrite V2 by auto. rewrite V1 by auto. reflexivity.
Qed.

(** what the entries of l with the column r contribute *)
Definition part (l : list (N * R)) (r : nat) : R :=
  sumn r (fun c => if one_node fl c then match find_key l (key c r) with Some v => v | None => 0 end else 0).
Lemma one_zero : forall c, one_node fl c = true -> zero_node fl c = false.
Proof using. intros c H. unfold one_node in H. apply andb_true_iff in H. destruct H as [H _]. apply negb_true_iff in H. auto. Qed.
Lemma sumn_delta : forall k i (x : R), (i < k)%nat -> sumn k (fun c => if Nat.eqb c i then x else 0) = x.
Proof using.
  clear. intros k i x H. induction k as [|k IH]; [lia|]. cbn [sumn]. destruct (Nat.eqb_spec k i) as [->|N].
  - rewrite (sumn_ext i _ (fun _ => 0)); [rewrite sumn_0; [ring|auto]|]. intros c Hc. destruct (Nat.eqb_spec c i); auto. lia.
  - rewrite IH by lia. ring.
Qed.
Lemma part_cons : forall k v l r, in_key n (k, v) -> (r < n)%nat -> ~ In k (map fst l) ->
  part ((k, v) :: l) r = part l r + (if Nat.eqb (kcol k) r && one_node fl (krow k) && negb (Nat.eqb r (krow k)) then v else 0).
Proof using U.
  clear LF.
  intros k v l r [i [j [Hij E]]] Hr NI. cbn [fst] in E. unfold part.
  assert (Ui : is_u32 i) by (eapply is_u32_le; [|exact U]; lia). assert (Uj : is_u32 j) by (eapply is_u32_le; [|exact U]; lia).
  assert (Kr : krow k = i) by (rewrite E; apply krow_key; auto). assert (Kc : kcol k = j) by (rewrite E; apply kcol_key; auto). rewrite Kr, Kc.
  set (x := if Nat.eqb j r && one_node fl i && negb (Nat.eqb r i) then v else 0).
  assert (Q : x = sumn r (fun c => if Nat.eqb c i then x else 0)).
  { destruct (Nat.lt_ge_cases i r) as [L|L]; [symmetry; apply sumn_delta; auto|].
    rewrite sumn_0.
    - unfold x. destruct (Nat.eqb_spec j r); cbn; auto. assert (i = r) by lia. subst. rewrite Nat.eqb_refl. rewrite andb_false_r. auto.
    - intros c Hc. destruct (Nat.eqb_spec c i); auto. lia. }
  rewrite Q, <- sumn_plus. apply sumn_ext. intros c Hc. cbn [find_key].
  assert (Uc : is_u32 c) by (eapply is_u32_le; [|exact U]; lia). assert (Ur : is_u32 r) by (eapply is_u32_le; [|exact U]; lia).
  destruct (N.eqb_spec k (key c r)) as [Ek|Ek].
  - rewrite E in Ek. apply key_inj in Ek; auto. destruct Ek as [-> ->]. rewrite Nat.eqb_refl. unfold x. rewrite Nat.eqb_refl. cbn [andb].
    destruct (Nat.eqb_spec r c); [lia|]. cbn [negb]. rewrite andb_true_r.
    assert (F : find_key l (key c r) = None) by (apply find_key_none; rewrite <- E; auto). rewrite F. destruct (one_node fl c); ring.
  - destruct (Nat.eqb_spec c i) as [->|N].
    + unfold x. destruct (Nat.eqb_spec j r) as [->|]; [congruence|]. cbn. destruct (one_node fl i); ring.
    + ring.
Qed.
(** without an assignment to b[r] the contributions are subtracted *)
Lemma fold_free : forall l r x, Forall (in_key n) l -> NoDup (map fst l) -> (r < n)%nat -> (held fl r = false \/ ~ In (key r r) (map fst l)) ->
  fold_left (hb r) l x = x - part l r.
Proof using U.
  clear LF.
  induction l as [|[k v] l IH]; intros r x H ND Hr C.
  - cbn. unfold part. rewrite sumn_0; [ring|]. intros c _. cbn. destruct (one_node fl c); auto.
  - cbn [fold_left]. inversion H; subst. cbn [map fst] in ND. inversion ND; subst.
    rewrite IH; auto; [|destruct C as [C|C]; [left; auto|right; intros I; apply C; right; auto]].
    rewrite part_cons by auto. unfold hb. cbn [fst snd]. destruct (Nat.eqb_spec (kcol k) r) as [E|N]; cbn [andb]; [|ring].
    assert (D : Nat.eqb r (krow k) = true -> held fl r = false).
    { intros Q. apply Nat.eqb_eq in Q. destruct C as [C|C]; auto. exfalso. apply C. left. destruct H2 as [i [j [Hij Ek]]]. cbn [fst] in Ek. cbn [fst]. subst k.
      rewrite kcol_key in E by (eapply is_u32_le; [|exact U]; lia). rewrite krow_key in Q by (eapply is_u32_le; [|exact U]; lia). subst. auto. }
    destruct (Nat.eqb_spec r (krow k)) as [Q|Q].
    + specialize (D eq_refl). rewrite <- Q. unfold held in D. apply orb_false_iff in D. destruct D as [D1 D2]. rewrite D1, D2. cbn. ring.
    + destruct (zero_node fl (krow k)) eqn:Z.
      * destruct (one_node fl (krow k)) eqn:O; [apply one_zero in O; congruence|]. cbn. ring.
      * destruct (one_node fl (krow k)); cbn; ring.
Qed.
(** after the diagonal entry has been met the target replaces what was there *)
Lemma fold_held : forall l1 l2 v r x, Forall (in_key n) l2 -> NoDup (map fst (l1 ++ (key r r, v) :: l2)) -> (r < n)%nat -> held fl r = true ->
  fold_left (hb r) (l1 ++ (key r r, v) :: l2) x = target fl r - part l2 r.
Proof using U.
  clear LF.
  intros l1 l2 v r x H2 ND Hr Hh. rewrite fold_left_app. cbn [fold_left]. rewrite map_app in ND. apply NoDup_remove in ND. destruct ND as [ND NI].
  assert (N2 : NoDup (map fst l2)). { clear - ND. induction (map fst l1); cbn in ND; auto. inversion ND; auto. }
  rewrite fold_free; auto; [|right; intros I; apply NI; apply in_or_app; auto].
  assert (Ur : is_u32 r) by (eapply is_u32_le; [|exact U]; lia).
  f_equal. unfold hb. cbn [fst snd]. rewrite kcol_key, krow_key by auto. rewrite !Nat.eqb_refl. unfold target. unfold held in Hh.
  destruct (one_node fl r) eqn:O; [rewrite (one_zero r O); auto|]. rewrite orb_false_r in Hh. rewrite Hh. auto.
Qed.
End Hold.

(** ** on a matrix *)
Lemma ready_keys : forall M, valid_coo M -> forall l, Permutation l (elems M) -> Forall (in_key (cm M)) l /\ NoDup (map fst l).
Proof.
  intros M [ND K] l P. split.
  - apply Forall_forall. intros [k v] I. destruct (K k v) as [i [j [H1 [H2 H3]]]]; [eapply Permutation_in; eauto|]. exists i, j. auto.
  - eapply Permutation_NoDup; [apply Permutation_map, Permutation_sym; eauto|auto].
Qed.
Lemma value_lt : forall (M : coo R) c r, (c <= r)%nat -> value 0 M c r = match find_key (elems M) (key c r) with Some v => v | None => 0 end.
Proof. intros M c r H. unfold value. rewrite Nat.min_l, Nat.max_r by lia. auto. Qed.
Section OnM.
Variable M : coo R.
Variable fl : list flags.
Hypothesis RD : hold_ready M fl.
Notation n := (cm M).
Let Wm : valid_coo M. Proof using RD. destruct RD as [H _]; exact H. Qed.
Let Um : is_u32 n. Proof using RD. destruct RD as [_ [H _]]; exact H. Qed.
Let Dm : all_diag_touched M. Proof using RD. destruct RD as [_ [_ [H _]]]; exact H. Qed.
Let Lm : length fl = n. Proof using RD. destruct RD as [_ [_ [_ H]]]; exact H. Qed.

Lemma vget_repeat : forall k r, vget (repeat 0 k) r = 0.
Proof using. clear. unfold vget. induction k; intros [|r]; cbn; auto. Qed.
Lemma run_any : forall l, Permutation l (elems M) -> exists A b, eliminated M fl l A b /\ length b = n /\
  elems A = map (hv fl) l /\ forall r, (r < n)%nat -> vget b r = fold_left (hb fl r) l 0.
Proof using RD.
  intros l P. destruct (ready_keys M Wm l P) as [K ND].
  destruct (hold_loop_eq n fl Um Lm l (repeat 0 n) K (repeat_length _ _)) as [b [E [L V]]].
  exists (mkCoo (map (hv fl) l) n), b. split; [split; [auto|split; [auto|exact E]]|]. split; auto. split; auto. intros r Hr. rewrite V by auto. rewrite vget_repeat. auto.
Qed.
Lemma run_det : forall l A b, eliminated M fl l A b -> length b = n /\ elems A = map (hv fl) l /\ forall r, (r < n)%nat -> vget b r = fold_left (hb fl r) l 0.
Proof using RD.
  intros l A b [P [C E]]. destruct (run_any l P) as [A' [b' [[_ [C' E']] [L [V W]]]]]. rewrite E in E'. injection E' as Ea Eb. rewrite <- Ea, <- Eb in *. auto.
Qed.
Lemma find_hv : forall l k, find_key (map (hv fl) l) k =
  match find_key l k with Some v => Some (snd (hv fl (k, v))) | None => None end.
Proof using. clear. induction l as [|[k' v] l IH]; intros k; cbn [map find_key hv fst]; auto. destruct (N.eqb_spec k' k); [subst; auto|apply IH]. Qed.

(** the matrix left behind *)
Lemma run_matrix : forall l A b, eliminated M fl l A b -> valid_coo A /\ all_diag_touched A /\ cm A = n /\
  forall i j, (i <= j < n)%nat -> value 0 A i j = if held fl i then (if Nat.eqb i j then 1 else 0) else value 0 M i j.
Proof using RD.
  intros l A b H. destruct (run_det l A b H) as [_ [Ea _]]. destruct H as [P [C _]]. destruct (ready_keys M Wm l P) as [K ND].
  assert (Ek : map fst (elems A) = map fst l). { rewrite Ea, map_map. apply map_ext. intros [? ?]; auto. }
  split; [|split; [|split; auto]].
  - split; [rewrite Ek; auto|]. intros k v I. rewrite C. assert (Ik : In k (map fst l)) by (rewrite <- Ek; apply (in_map fst _ (k, v)); auto).
    apply in_map_iff in Ik. destruct Ik as [[k' v'] [E Iv]]. cbn in E. subst k'. rewrite Forall_forall in K. destruct (K _ Iv) as [i [j [H1 H2]]]. exists i, j. repeat split; auto; lia.
  - intros i Hi. unfold touched. rewrite Ek. rewrite C in Hi. specialize (Dm i Hi). unfold touched in Dm. eapply Permutation_in; [apply Permutation_map, Permutation_sym; eauto|auto].
  - intros i j Hij. rewrite !value_lt by lia. rewrite Ea, find_hv. rewrite (find_key_perm (elems M) l (key i j)) by (auto using Permutation_sym; apply Wm).
    assert (Ui : is_u32 i) by (eapply is_u32_le; [|exact Um]; lia). assert (Uj : is_u32 j) by (eapply is_u32_le; [|exact Um]; lia).
    destruct (find_key l (key i j)) as [v|] eqn:F.
    + unfold hv. cbn [fst snd]. rewrite krow_key, kcol_key by auto. destruct (held fl i); auto. rewrite Nat.eqb_sym. auto.
    + destruct (held fl i); auto. destruct (Nat.eqb_spec i j) as [->|]; auto. exfalso.
      assert (T : touched M j j) by (apply Dm; lia). unfold touched in T. apply find_key_none in F. apply F. eapply Permutation_in; [apply Permutation_map, Permutation_sym; eauto|auto].
Qed.

Lemma part_S : forall l r, (r < n)%nat -> Permutation l (elems M) -> part fl l r = sumn r (fun c => if one_node fl c then value 0 M c r else 0).
Proof using RD.
  intros l r Hr P. unfold part. apply sumn_ext. intros c Hc. destruct (one_node fl c); auto. rewrite value_lt by lia.
  rewrite (find_key_perm (elems M) l) by (auto using Permutation_sym; apply Wm). auto.
Qed.
Lemma rhs_lost : forall l A b, eliminated M fl l A b -> exists S, forall r, (r < n)%nat -> vget b r = rhs_with M fl S r.
Proof using RD.
  intros l A b H. destruct (run_det l A b H) as [_ [_ V]]. destruct H as [P [C _]]. destruct (ready_keys M Wm l P) as [K ND].
  (* the entries after the diagonal one *)
  set (after := fix after (l : list (N * R)) (k : N) := match l with [] => [] | (k', v) :: l' => if N.eqb k' k then l' else after l' k end).
  exists (fun c r => match find_key (after l (key r r)) (key c r) with Some _ => true | None => false end).
  intros r Hr. rewrite V by auto. unfold rhs_with.
  destruct (held fl r) eqn:Hh.
  - cbn [negb orb]. rewrite Rmult_1_r.
    assert (I : In (key r r) (map fst l)). { specialize (Dm r Hr). unfold touched in Dm. eapply Permutation_in; [apply Permutation_map, Permutation_sym; eauto|auto]. }
    assert (X : forall l, In (key r r) (map fst l) -> exists l1 v, l = l1 ++ (key r r, v) :: after l (key r r)).
    { clear. induction l as [|[k v] l IH]; intros I; [destruct I|]. cbn. destruct (N.eqb_spec k (key r r)) as [->|N]; [exists [], v; auto|].
      destruct I as [E|I]; [cbn in E; congruence|]. destruct (IH I) as [l1 [w E]]. exists ((k, v) :: l1), w. cbn. f_equal. auto. }
    destruct (X l I) as [l1 [v E]]. set (l2 := after l (key r r)) in *. rewrite E at 1. rewrite fold_held with (n := n); auto.
    + f_equal. unfold part. apply sumn_ext. intros c Hc. destruct (one_node fl c); cbn [andb]; auto. rewrite value_lt by lia.
      destruct (find_key l2 (key c r)) as [w|] eqn:F; auto. apply find_key_in in F.
      assert (F2 : In (key c r, w) (elems M)). { eapply Permutation_in; [exact P|]. rewrite E. apply in_or_app. right. right. auto. }
      apply find_key_some_iff in F2; [|apply Wm]. rewrite F2. auto.
    + apply Forall_forall. intros z Iz. rewrite Forall_forall in K. apply K. rewrite E. apply in_or_app. right. right. auto.
    + rewrite <- E. auto.
  - rewrite fold_free with (n := n); auto. rewrite part_S by auto. cbn [negb orb]. rewrite Rmult_0_r. f_equal. apply sumn_ext. intros c _. rewrite andb_true_r. auto.
Qed.
Lemma rhs_reached : forall S, exists l A b, eliminated M fl l A b /\ forall r, (r < n)%nat -> vget b r = rhs_with M fl S r.
Proof using RD.
  intros S. set (dg := fun kv : N * R => Nat.eqb (krow (fst kv)) (kcol (fst kv))). set (la := fun kv : N * R => negb (dg kv) && S (krow (fst kv)) (kcol (fst kv))).
  set (fi := fun kv : N * R => negb (dg kv) && negb (S (krow (fst kv)) (kcol (fst kv)))).
  set (l := filter fi (elems M) ++ filter dg (elems M) ++ filter la (elems M)).
  assert (P : Permutation l (elems M)).
  { unfold l. clear -dg la fi. induction (elems M) as [|x e IH]; auto. cbn [filter].
    assert (Ef : fi x = negb (dg x) && negb (S (krow (fst x)) (kcol (fst x)))) by reflexivity. assert (El : la x = negb (dg x) && S (krow (fst x)) (kcol (fst x))) by reflexivity.
    rewrite Ef, El. destruct (dg x); cbn [negb andb].
    - apply Permutation_sym. eapply Permutation_trans; [|apply Permutation_middle]. constructor. apply Permutation_sym. auto.
    - destruct (S (krow (fst x)) (kcol (fst x))); cbn [negb].
      + apply Permutation_sym. rewrite app_assoc. eapply Permutation_trans; [|apply Permutation_middle]. constructor. rewrite <- app_assoc. apply Permutation_sym. auto.
      + cbn. constructor. auto. }
  destruct (run_any l P) as [A [b [E [L [Ea V]]]]]. exists l, A, b. split; auto. intros r Hr. rewrite V by auto. unfold rhs_with.
  destruct (ready_keys M Wm l P) as [K ND]. assert (Ur : is_u32 r) by (eapply is_u32_le; [|exact Um]; lia).
  destruct (held fl r) eqn:Hh.
  - cbn [negb orb]. rewrite Rmult_1_r.
    assert (I : exists v, In (key r r, v) (filter dg (elems M))).
    { specialize (Dm r Hr). unfold touched in Dm. apply in_map_iff in Dm. destruct Dm as [[k v] [Ek I]]. cbn in Ek. subst k. exists v. apply filter_In. split; auto.
      unfold dg. cbn [fst]. rewrite krow_key, kcol_key by auto. apply Nat.eqb_refl. }
    destruct I as [v I]. apply in_split in I. destruct I as [d1 [d2 Ed]].
    assert (El : l = (filter fi (elems M) ++ d1) ++ (key r r, v) :: (d2 ++ filter la (elems M))). { unfold l. rewrite Ed. rewrite <- !app_assoc. cbn. auto. }
    rewrite El. rewrite El in K, ND. rewrite fold_held with (n := n); auto.
    + f_equal. unfold part. apply sumn_ext. intros c Hc. destruct (one_node fl c); cbn [andb]; auto. rewrite value_lt by lia.
      assert (Uc : is_u32 c) by (eapply is_u32_le; [|exact Um]; lia).
      assert (F1 : find_key d2 (key c r) = None).
      { apply find_key_none. intros J. apply in_map_iff in J. destruct J as [[k w] [Ek J]]. cbn in Ek. subst k.
        assert (J2 : In (key c r, w) (filter dg (elems M))) by (rewrite Ed; apply in_or_app; right; right; auto). apply filter_In in J2. destruct J2 as [_ J2].
        unfold dg in J2. cbn [fst] in J2. rewrite krow_key, kcol_key in J2 by auto. apply Nat.eqb_eq in J2. lia. }
      rewrite (find_key_app d2). rewrite F1.
      assert (F2 : find_key (filter la (elems M)) (key c r) = if S c r then find_key (elems M) (key c r) else None).
      { clear - Ur Uc Hc. set (k := key c r). assert (La : forall w, la (k, w) = S c r).
        { intros w. unfold la, dg, k. cbn [fst]. rewrite krow_key, kcol_key by auto. destruct (Nat.eqb_spec c r); [lia|]. auto. }
        induction (elems M) as [|[k' w] e IH]; cbn [filter find_key]; [destruct (S c r); auto|].
        destruct (N.eqb_spec k' k) as [->|N].
        - rewrite La. destruct (S c r); cbn [find_key]; [rewrite N.eqb_refl; auto|auto].
        - destruct (la (k', w)); cbn [find_key]; auto. apply N.eqb_neq in N. rewrite N. auto. }
      rewrite F2. destruct (S c r); auto.
    + apply Forall_forall. intros z Iz. rewrite Forall_forall in K. apply K. apply in_or_app. right. right. auto.
  - rewrite fold_free with (n := n); auto. rewrite part_S by auto. cbn [negb orb]. rewrite Rmult_0_r. f_equal. apply sumn_ext. intros c _. rewrite andb_true_r. auto.
Qed.

(** order independence *)
Lemma same_rhs : (forall c r, (c < r < n)%nat -> one_node fl c = true -> held fl r = true -> value 0 M c r = 0) ->
  forall S S' r, (r < n)%nat -> rhs_with M fl S r = rhs_with M fl S' r.
Proof using.
  intros H S S' r Hr. unfold rhs_with. f_equal. apply sumn_ext. intros c Hc. destruct (one_node fl c) eqn:O; cbn [andb]; auto.
  destruct (held fl r) eqn:Hh; cbn [negb orb]; auto. rewrite (H c r) by (auto; lia). destruct (S c r), (S' c r); auto.
Qed.
Lemma indep_iff : (forall l1 l2 A1 A2 b1 b2, eliminated M fl l1 A1 b1 -> eliminated M fl l2 A2 b2 -> b1 = b2) <->
  (forall c r, (c < r < n)%nat -> one_node fl c = true -> held fl r = true -> value 0 M c r = 0).
Proof using RD.
  split.
  - intros H c r Hr O Hh. destruct (rhs_reached (fun _ _ => false)) as [l1 [A1 [b1 [E1 V1]]]].
    destruct (rhs_reached (fun x y => Nat.eqb x c && Nat.eqb y r)) as [l2 [A2 [b2 [E2 V2]]]].
    pose proof (H _ _ _ _ _ _ E1 E2) as Q. subst b2. assert (Hrn : (r < n)%nat) by lia. pose proof (V1 r Hrn) as X. rewrite (V2 r Hrn) in X. unfold rhs_with in X. rewrite Hh in X.
    rewrite (sumn_ext r _ (fun x => if Nat.eqb x c then value 0 M c r else 0)) in X.
    + rewrite sumn_delta in X by lia. rewrite (sumn_0 r) in X; [lra|]. intros x _. cbn. rewrite andb_false_r. auto.
    + intros x Hx. destruct (Nat.eqb_spec x c) as [->|]; cbn [negb orb andb]; [rewrite Nat.eqb_refl, O; auto|]. rewrite andb_false_r. auto.
  - intros H l1 l2 A1 A2 b1 b2 E1 E2. destruct (rhs_lost _ _ _ E1) as [S1 V1]. destruct (rhs_lost _ _ _ E2) as [S2 V2].
    destruct (run_det _ _ _ E1) as [L1 _]. destruct (run_det _ _ _ E2) as [L2 _].
    apply (list_ext R 0); [congruence|]. intros i Hi. rewrite L1 in Hi. unfold vget in V1, V2. rewrite V1, V2 by auto. apply same_rhs; auto.
Qed.

(** the solutions *)
Lemma value_symm : forall (A : coo R) i j, value 0 A i j = value 0 A j i.
Proof using. clear. intros. unfold value. rewrite Nat.min_comm, Nat.max_comm. auto. Qed.
Lemma solution_values : (forall c r, (c < r < n)%nat -> held fl r = true -> zero_node fl c = true \/ value 0 M c r = 0) ->
  forall l A b x, eliminated M fl l A b -> is_solution A b x ->
  (forall i, (i < n)%nat -> held fl i = true -> vget x i = target fl i) /\
  (forall i, (i < n)%nat -> held fl i = false -> sumn n (fun j => value 0 M i j * vget x j) = 0).
Proof using RD.
  intros C l A b x E HS. destruct (rhs_lost _ _ _ E) as [S V]. destruct (run_matrix _ _ _ E) as [_ [_ [Cm VA]]]. unfold is_solution in HS. rewrite Cm in HS.
  assert (E1 : forall i j, (i < n)%nat -> (j < n)%nat -> value 0 A i j =
    if held fl (Nat.min i j) then (if Nat.eqb i j then 1 else 0) else value 0 M i j).
  { intros i j Hi Hj. destruct (Nat.le_ge_cases i j) as [L|L].
    - rewrite VA by lia. rewrite Nat.min_l by lia. auto.
    - rewrite (value_symm A), (value_symm M). rewrite VA by lia. rewrite Nat.min_r by lia. rewrite Nat.eqb_sym. auto. }
  assert (FX : forall i, (i < n)%nat -> held fl i = true -> vget x i = target fl i).
  { intros i Hi Hh. specialize (HS i Hi). unfold row in HS. rewrite Cm in HS. rewrite V in HS by auto.
    rewrite (sumn_ext n _ (fun j => if Nat.eqb j i then vget x i else 0)) in HS.
    - rewrite sumn_delta in HS by auto. rewrite HS. unfold rhs_with. rewrite Hh. rewrite sumn_0; [ring|]. intros c Hc.
      destruct (one_node fl c) eqn:O; cbn [andb]; auto. destruct (C c i) as [Z|Z]; auto; [apply one_zero in O; congruence|]. rewrite Z. destruct (_ || _); auto.
    - intros j Hj. rewrite E1 by auto. destruct (Nat.eqb_spec j i) as [->|N].
      + rewrite Nat.min_id, Hh, Nat.eqb_refl. ring.
      + destruct (Nat.le_ge_cases i j) as [L|L].
        * rewrite Nat.min_l by lia. rewrite Hh. destruct (Nat.eqb_spec i j); [lia|ring].
        * rewrite Nat.min_r by lia. destruct (held fl j) eqn:Hj2; [destruct (Nat.eqb_spec i j); [lia|ring]|].
          destruct (C j i) as [Z|Z]; auto; [lia|unfold held in Hj2; rewrite Z in Hj2; discriminate|]. rewrite value_symm, Z. ring. }
  split; auto. intros i Hi Hf. pose proof (HS i Hi) as Q. unfold row in Q. rewrite Cm in Q. rewrite V in Q by auto. unfold rhs_with in Q. rewrite Hf in Q.
  cbn [negb orb] in Q. rewrite Rmult_0_r, Rminus_0_l in Q.
  assert (D : sumn n (fun j => value 0 M i j * vget x j) = sumn n (fun j => value 0 A i j * vget x j) +
    sumn n (fun c => if Nat.ltb c i then (if one_node fl c then value 0 M c i else 0) else 0)).
  { rewrite <- sumn_plus. apply sumn_ext. intros j Hj. rewrite E1 by auto. destruct (Nat.ltb_spec j i) as [L|L].
    - rewrite Nat.min_r by lia. destruct (held fl j) eqn:Hj2.
      + rewrite (FX j) by auto. unfold target. destruct (Nat.eqb_spec i j); [lia|]. rewrite (value_symm M i j). destruct (one_node fl j); ring.
      + destruct (one_node fl j) eqn:O; [unfold held in Hj2; rewrite O, orb_true_r in Hj2; discriminate|]. ring.
    - rewrite Nat.min_l by lia. rewrite Hf. ring. }
  rewrite D, Q.
  assert (T : forall k, (i <= k)%nat -> sumn k (fun c => if Nat.ltb c i then (if one_node fl c then value 0 M c i else 0) else 0) = sumn i (fun c => if one_node fl c then value 0 M c i else 0)).
  { induction k as [|k IH]; intros Hk; [assert (i = 0)%nat by lia; subst; auto|]. destruct (Nat.eq_dec i (Datatypes.S k)) as [->|N].
    - apply sumn_ext. intros c Hc. destruct (Nat.ltb_spec c (Datatypes.S k)); auto. lia.
    - cbn [sumn]. rewrite IH by lia. destruct (Nat.ltb_spec k i); [lia|]. ring. }
  rewrite T by lia. rewrite (sumn_ext i (fun c => if one_node fl c && true then value 0 M c i else 0) (fun c => if one_node fl c then value 0 M c i else 0)); [ring|]. intros c _. rewrite andb_true_r. auto.
Qed.
(** two orders give the same solver input *)
Lemma same_input : (forall c r, (c < r < n)%nat -> one_node fl c = true -> held fl r = true -> value 0 M c r = 0) ->
  forall l1 l2 A1 A2 b1 b2, eliminated M fl l1 A1 b1 -> eliminated M fl l2 A2 b2 -> csr_build 0 A1 = csr_build 0 A2 /\ b1 = b2.
Proof using RD.
  intros H l1 l2 A1 A2 b1 b2 E1 E2. split; [|eapply (proj2 indep_iff); eauto].
  destruct (run_det _ _ _ E1) as [_ [V1 _]]. destruct (run_det _ _ _ E2) as [_ [V2 _]]. destruct (run_matrix _ _ _ E1) as [W1 [_ [C1 _]]]. destruct (run_matrix _ _ _ E2) as [_ [_ [C2 _]]].
  apply order_free; auto; [|congruence]. rewrite V1, V2. apply Permutation_map. destruct E1 as [P1 _], E2 as [P2 _]. eapply Permutation_trans; [exact P1|apply Permutation_sym; auto].
Qed.
End OnM.
