(** Non-linear expressions and the symbolic CSR matrix (non_linear.hpp, non_linear.cpp). *)
From Coq Require Import String.
From Coq Require Import List Arith ZArith NArith Bool Lia Reals Lra Permutation.
From Verif Require Import Base AlgebraModel AlgebraSpec Coo_proofs Csr_proofs SumR System_proofs.
Import ListNotations.
Local Open Scope R_scope.

Lemma ne_eval_ok : forall (e : rexpr) (mu : list R), ne_ok e mu -> ne_eval ROps e mu = Ok (ne_val e mu).
Proof.
  intros [c ts] mu H. unfold ne_ok, ne_eval, ne_val in *. cbn [terms constant] in *. revert c.
  induction ts as [|[a i] ts IH]; intros c; cbn [ne_eval_terms]; [unfold suml; cbn; f_equal; toR; ring|].
  inversion H; subst. destruct H2 as [L NZ]; cbn [fst snd] in *.
  toR. rewrite (get_lt _ mu i 0) by auto. cbn [bind]. cbn [div ROps]. rewrite Rdivr_ok by auto. cbn [bind].
  rewrite IH by auto. cbn [add ROps]. unfold suml; cbn [fold_right fst snd]. f_equal. toR. unfold vget. rewrite <- Rplus_assoc. reflexivity.
Qed.

(** when the vector misses an index, the read is out of bounds; on a zero entry the quotient is not finite *)
Lemma ne_eval_bad : forall (e : rexpr) (mu : list R), ~ ne_ok e mu -> is_ub (ne_eval ROps e mu) \/ is_nonfin (ne_eval ROps e mu).
Proof.
  intros [c ts] mu H. unfold ne_ok, ne_eval in *. cbn [terms constant] in *. revert c.
  induction ts as [|[a i] ts IH]; intros c; cbn [ne_eval_terms]; [exfalso; apply H; constructor|].
  destruct (le_lt_dec (length mu) i) as [L|L].
  - destruct (get_ge _ mu i L) as [s E]. left. toR. rewrite E. eexists; reflexivity.
  - toR. rewrite (get_lt _ mu i 0) by auto. cbn [bind div ROps].
    destruct (Req_dec (vget mu i) 0) as [Z|NZ].
    + unfold vget in Z. right. rewrite Z. destruct (Rdivr_zero a) as [s E]. rewrite E. eexists; reflexivity.
    + unfold vget in NZ. rewrite Rdivr_ok by auto. cbn [bind]. apply IH. intro F. apply H. constructor; auto.
Qed.

Lemma suml_neg : forall A (l : list A) f, suml l (fun x => - f x) = - suml l f.
Proof. unfold suml; induction l; intros; cbn; [ring|]. rewrite IHl; ring. Qed.

Lemma val_add : forall e f mu, ne_val (ne_add ROps e f) mu = ne_val e mu + ne_val f mu.
Proof. intros. unfold ne_val, ne_add; cbn [constant terms add ROps]. rewrite suml_app. toR. ring. Qed.
Lemma val_sub : forall e f mu, ne_val (ne_sub ROps e f) mu = ne_val e mu - ne_val f mu.
Proof.
  intros. unfold ne_val, ne_sub; cbn [constant terms sub opp ROps]. rewrite suml_app, suml_map. cbn [fst snd].
  rewrite (suml_ext _ (terms ROps f) _ (fun t => - (fst t / vget mu (snd t)))); [rewrite suml_neg; toR; ring|].
  intros; toR; unfold Rdiv; ring.
Qed.
Lemma val_scale : forall e (d : R) mu, ne_val (ne_scale ROps e d) mu = ne_val e mu * d.
Proof.
  intros. unfold ne_val, ne_scale; cbn [constant terms mul ROps]. rewrite suml_map. cbn [fst snd].
  rewrite (suml_ext _ (terms ROps e) _ (fun t => d * (fst t / vget mu (snd t)))); [rewrite suml_scal; toR; ring|].
  intros; toR; unfold Rdiv; ring.
Qed.
Lemma ok_add : forall e f mu, ne_ok e mu -> ne_ok f mu -> ne_ok (ne_add ROps e f) mu.
Proof. intros; unfold ne_ok, ne_add in *; cbn [terms]; apply Forall_app; auto. Qed.
Lemma ok_sub : forall e f mu, ne_ok e mu -> ne_ok f mu -> ne_ok (ne_sub ROps e f) mu.
Proof. intros; unfold ne_ok, ne_sub in *; cbn [terms]; apply Forall_app; split; auto. apply Forall_map. auto. Qed.
Lemma ok_scale : forall e (d : R) mu, ne_ok e mu -> ne_ok (ne_scale ROps e d) mu.
Proof. intros; unfold ne_ok, ne_scale in *; cbn [terms]; apply Forall_map; auto. Qed.

(** ** Programs over named expression objects (C17) *)
Lemma suml_one : forall A (x : A) f, suml [x] f = f x.
Proof. intros; unfold suml; cbn; ring. Qed.

Lemma neop_ok : forall mu op st st', neop_run op st = Ok st' -> (forall i, ne_ok (st i) mu) ->
  Forall (mu_ok mu) (neop_idx op) ->
  (forall i, ne_ok (st' i) mu) /\ (forall i, ne_val (st' i) mu = neop_mean mu op (fun i => ne_val (st i) mu) i).
Proof.
  intros mu op st st' H OK IX.
  assert (P : forall n e v, ne_ok e mu -> ne_val e mu = v -> (forall i, ne_ok (nput st n e i) mu) /\
              (forall i, ne_val (nput st n e i) mu = nput (fun i => ne_val (st i) mu) n v i)).
  { intros n e v He Hv. split; intros i; unfold nput; destruct (Nat.eqb_spec i n); subst; auto. }
  destruct op as [i d|i j|i d|i a k|i j|i d|i a k|i j|i j d]; cbn [neop_run neop_mean neop_idx] in *.
  - inversion H; subst. apply P; [constructor|]. unfold ne_val, ne_const; cbn [constant terms]. unfold suml; cbn. toR. ring.
  - inversion H; subst. apply P; auto.
  - inversion H; subst. apply P; [apply OK|]. unfold ne_val, ne_add_num; cbn [constant terms add ROps]. toR; ring.
  - inversion H; subst. inversion IX; subst. apply P.
    + unfold ne_ok, ne_add_term; cbn [terms]. apply Forall_app; split; [apply OK|repeat constructor; cbn; apply H2].
    + unfold ne_val, ne_add_term; cbn [constant terms]. rewrite suml_app, suml_one. cbn [fst snd]. toR; ring.
  - destruct (Nat.eqb_spec i j) as [E|E].
    + subst j. unfold ne_add_self in H. destruct (terms ROps (st i)) as [|t ts] eqn:Et; cbn [bind] in H; [|discriminate].
      inversion H; subst. apply P; [constructor|]. unfold ne_val; cbn [constant terms add ROps]. rewrite Et. unfold suml; cbn. toR; ring.
    + inversion H; subst. apply P; [apply ok_add; auto|apply val_add].
  - inversion H; subst. apply P; [apply OK|]. unfold ne_val, ne_sub_num; cbn [constant terms sub ROps]. toR; ring.
  - inversion H; subst. inversion IX; subst. apply P.
    + unfold ne_ok, ne_sub_term; cbn [terms]. apply Forall_app; split; [apply OK|repeat constructor; cbn; apply H2].
    + unfold ne_val, ne_sub_term; cbn [constant terms opp ROps]. rewrite suml_app, suml_one. cbn [fst snd]. toR; unfold Rdiv; ring.
  - destruct (Nat.eqb_spec i j) as [E|E].
    + subst j. unfold ne_sub_self in H. destruct (terms ROps (st i)) as [|t ts] eqn:Et; cbn [bind] in H; [|discriminate].
      inversion H; subst. apply P; [constructor|]. unfold ne_val; cbn [constant terms sub ROps]. rewrite Et. unfold suml; cbn. toR; ring.
    + inversion H; subst. apply P; [apply ok_sub; auto|apply val_sub].
  - inversion H; subst. apply P; [apply ok_scale; auto|apply val_scale].
Qed.

Lemma neop_mean_ext : forall mu op x y, (forall i, x i = y i) -> forall i, neop_mean mu op x i = neop_mean mu op y i.
Proof. intros mu op x y H i; destruct op; cbn [neop_mean]; unfold nput; destruct (Nat.eqb i _); rewrite ?H; auto. Qed.
Lemma neprog_mean_ext : forall mu l x y, (forall i, x i = y i) -> forall i, neprog_mean mu l x i = neprog_mean mu l y i.
Proof. induction l as [|op l IH]; intros x y H i; cbn [neprog_mean]; auto. apply IH. apply neop_mean_ext; auto. Qed.

Lemma neprog_ok : forall mu l st st', neprog l st = Ok st' -> (forall i, ne_ok (st i) mu) ->
  Forall (fun op => Forall (mu_ok mu) (neop_idx op)) l ->
  forall i, ne_eval ROps (st' i) mu = Ok (neprog_mean mu l (fun i => ne_val (st i) mu) i).
Proof.
  induction l as [|op l IH]; intros st st' H OK IX i; cbn [neprog neprog_mean] in *.
  - inversion H; subst. apply ne_eval_ok; auto.
  - inversion IX; subst. destruct (neop_run op st) as [s1| | |] eqn:E1; cbn [bind] in H; try discriminate.
    destruct (neop_ok mu op st s1 E1 OK H2) as [OK1 V1].
    rewrite (IH s1 st' H OK1 H3 i). f_equal. apply neprog_mean_ext. auto.
Qed.

Lemma neprog_total : forall l st, Forall no_self l -> exists st', neprog l st = Ok st'.
Proof.
  induction l as [|op l IH]; intros st H; cbn [neprog]; [eauto|]. inversion H; subst.
  destruct op as [i d|i j|i d|i a k|i j|i d|i a k|i j|i j d]; cbn [neop_run]; cbn [bind]; auto;
    cbn [no_self] in H2; apply Nat.eqb_neq in H2; rewrite H2; cbn [bind]; auto.
Qed.

(** ** Symbolic CSR (C18) *)

Definition coo_map {V W} (f : V -> W) (A : coo V) : coo W := mkCoo (map (fun kv => (fst kv, f (snd kv))) (elems A)) (cm A).
Definition csr_map {V W} (f : V -> W) (A : csr V) : csr W :=
  mkCsr (row_ptr A) (col_ind A) (map f (val A)) (map f (diag A)) (nnz A) (m A).

Lemma insert_map : forall V W (f : V -> W) x l,
  insert_key (fst x, f (snd x)) (map (fun kv => (fst kv, f (snd kv))) l) = map (fun kv => (fst kv, f (snd kv))) (insert_key x l).
Proof. induction l as [|y l IH]; cbn; auto. destruct (N.ltb (fst x) (fst y)); cbn; auto. rewrite <- IH; auto. Qed.
Lemma sort_map : forall V W (f : V -> W) l,
  sort_keys (map (fun kv => (fst kv, f (snd kv))) l) = map (fun kv => (fst kv, f (snd kv))) (sort_keys l).
Proof. induction l as [|x l IH]; cbn; auto. rewrite IH. apply (insert_map V W f x). Qed.

Definition res_map {A B} (f : A -> B) (r : res A) : res B :=
  match r with Ok a => Ok (f a) | Throw s => Throw s | UB s => UB s | NonFin s => NonFin s end.
Definition fill_map {V W} (f : V -> W) (s : fill V) : fill W := mkFill (f_i s) (f_rp s) (f_ci s) (map f (f_val s)) (map f (f_diag s)).

Lemma upd_map : forall A B (f : A -> B) l i x, map f (upd l i x) = upd (map f l) i (f x).
Proof. induction l as [|y l IH]; intros [|i] x; cbn; auto. rewrite IH; auto. Qed.
Lemma set_map : forall A B (f : A -> B) l i x, set (map f l) i (f x) = res_map (map f) (set l i x).
Proof.
  intros. destruct (le_lt_dec (length l) i) as [L|L].
  - unfold set. rewrite map_length. destruct (Nat.ltb_spec i (length l)); [lia|auto].
  - rewrite !set_lt by (rewrite ?map_length; auto). cbn. rewrite upd_map; auto.
Qed.

Lemma fill_step_map : forall V W (f : V -> W) k v s,
  fill_step (k, f v) (fill_map f s) = res_map (fill_map f) (fill_step (k, v) s).
Proof.
  intros. unfold fill_step; cbn [fst snd fill_map f_i f_rp f_ci f_val f_diag].
  destruct (Nat.eqb (krow k) (kcol k)).
  - rewrite set_map. destruct (set (f_diag s) (krow k) v); cbn; auto.
  - destruct (set (f_ci s) (f_i s) (kcol k)); cbn; auto. rewrite set_map. destruct (set (f_val s) (f_i s) v); cbn; auto.
    destruct (get (f_rp s) (u32 (krow k + 1))); cbn; auto. destruct (set (f_rp s) _ _); cbn; auto.
Qed.

Lemma fill_loop_map : forall V W (f : V -> W) l s,
  forM_list (map (fun kv => (fst kv, f (snd kv))) l) fill_step (fill_map f s) = res_map (fill_map f) (forM_list l fill_step s).
Proof.
  induction l as [|[k v] l IH]; intros s; cbn [map forM_list fst snd]; auto.
  rewrite fill_step_map. destruct (fill_step (k, v) s); cbn; auto.
Qed.

(** building the CSR arrays does not look at the payload *)
Lemma csr_build_map : forall V W (f : V -> W) v0 A,
  csr_build (f v0) (coo_map f A) = res_map (csr_map f) (csr_build v0 A).
Proof.
  intros. unfold csr_build. unfold coo_map; cbn [elems cm]. rewrite sort_map, map_length.
  assert (R : forall n, repeat (f v0) n = map f (repeat v0 n)) by (induction n; cbn; congruence).
  rewrite !R.
  set (nz := u32_sub (length (sort_keys (elems A))) (cm A)).
  change (mkFill 0 (repeat 0%nat (u32 (cm A + 1))) (repeat 0%nat nz) (map f (repeat v0 nz)) (map f (repeat v0 (cm A))))
    with (fill_map f (mkFill 0 (repeat 0%nat (u32 (cm A + 1))) (repeat 0%nat nz) (repeat v0 nz) (repeat v0 (cm A)))).
  rewrite fill_loop_map. destruct (forM_list _ _ _) as [s| | |]; cbn [res_map bind]; auto.
  cbn [fill_map f_rp f_ci f_val f_diag]. destruct (forM_up _ _ _); cbn; auto.
Qed.

Section Evaluate.
Variable A : coo rexpr.
Variable mu : list R.

Definition gptr (p : option N) : R := match p with Some k => match find_key (elems A) k with Some e => ne_val e mu | None => 0 end | None => 0 end.

Definition good_ptr (p : option N) : Prop := exists k e, p = Some k /\ find_key (elems A) k = Some e /\ ne_ok e mu.

Lemma set_loop : forall n (g : nat -> R) (body : nat -> list R -> res (list R)) (out : list R), length out = n ->
  (forall i v, (i < n)%nat -> length v = n -> body i v = Ok (upd v i (g i))) ->
  forM_up n body out = Ok (map g (seq 0 n)).
Proof.
  intros n g body out L H.
  destruct (forM_up_inv (list R) (fun k v => length v = n /\ forall i, (i < k)%nat -> vget v i = g i) body n out) as [s [E [Ls Vs]]].
  - split; auto. intros; lia.
  - intros i v Hi [Lv Vv]. rewrite (H i v Hi Lv). eexists; split; [reflexivity|]. rewrite upd_length. split; auto.
    intros k Hk. unfold vget. destruct (Nat.eq_dec k i) as [Ek|Ek].
    + subst. rewrite nth_upd_same by lia. auto.
    + rewrite nth_upd_other by auto. apply Vv. lia.
  - rewrite E. f_equal. apply vget_list_ext; [rewrite map_length, seq_length; auto|]. rewrite Ls. intros i Hi. rewrite Vs by auto.
    unfold vget. rewrite (nth_indep _ 0 (g 0%nat)) by (rewrite map_length, seq_length; auto). rewrite map_nth, seq_nth by auto. auto.
Qed.

Lemma good_deref : forall p, good_ptr p -> (e <- deref ROps A p ;; ne_eval ROps e mu) = Ok (gptr p).
Proof. intros p [k [e [E [F K]]]]; subst. cbn [deref gptr]. rewrite F. cbn [bind]. apply ne_eval_ok; auto. Qed.

Lemma evaluate_ok : forall M, length (n_diag ROps M) = m (n_ptr ROps M) -> length (n_val ROps M) = nnz (n_ptr ROps M) ->
  length (diag (n_ptr ROps M)) = m (n_ptr ROps M) -> length (val (n_ptr ROps M)) = nnz (n_ptr ROps M) ->
  Forall good_ptr (diag (n_ptr ROps M)) -> Forall good_ptr (val (n_ptr ROps M)) ->
  ncsr_evaluate ROps A M mu = Ok (mkNcsr ROps (n_ptr ROps M) (map gptr (val (n_ptr ROps M))) (map gptr (diag (n_ptr ROps M)))).
Proof.
  intros [p vl dg] Ld Lv Lpd Lpv Gd Gv. cbn [n_ptr n_val n_diag] in *. unfold ncsr_evaluate. cbn [n_ptr n_val n_diag].
  assert (GEN : forall (ps : list (option N)) (v : list R) i, Forall good_ptr ps -> (i < length ps)%nat -> length v = length ps ->
     (p <- get ps i ;; e <- deref ROps A p ;; x <- ne_eval ROps e mu ;; set v i x) = Ok (upd v i (gptr (nth i ps None)))).
  { intros ps v i G Hi L. rewrite (get_lt _ ps i None) by auto. cbn [bind].
    assert (Gi : good_ptr (nth i ps None)) by (rewrite Forall_forall in G; apply G; apply nth_In; auto).
    pose proof (good_deref _ Gi) as D. destruct (deref ROps A (nth i ps None)); cbn [bind] in D; try discriminate.
    cbn [bind]. rewrite D. cbn [bind]. rewrite set_lt by lia. auto. }
  assert (MAP : forall ps : list (option N), map (fun i => gptr (nth i ps None)) (seq 0 (length ps)) = map gptr ps).
  { intros ps. rewrite <- map_map with (f := fun i => nth i ps None). f_equal. clear. induction ps as [|x ps IH]; cbn; auto.
    f_equal. rewrite <- seq_shift, map_map. auto. }
  rewrite (set_loop (m p) (fun i => gptr (nth i (diag p) None))); auto.
  - cbn [bind]. rewrite (set_loop (nnz p) (fun i => gptr (nth i (val p) None))); auto.
    + cbn [bind]. rewrite <- Lpd, <- Lpv at 1. rewrite !MAP. auto.
    + intros i v Hi L. apply GEN; auto; lia.
  - intros i v Hi L. toR. rewrite (get_lt _ v i 0) by lia. cbn [bind]. apply GEN; auto; lia.
Qed.
End Evaluate.

Lemma forM_up_length : forall n (body : nat -> list R -> res (list R)) v v',
  (forall i v v', body i v = Ok v' -> length v' = length v) -> forM_up n body v = Ok v' -> length v' = length v.
Proof.
  intros n body v v' H. unfold forM_up. generalize 0%nat as k. revert v. induction n as [|n IH]; intros v k E; cbn in E.
  - inversion E; auto.
  - destruct (body k v) as [w| | |] eqn:Eb; cbn in E; try discriminate. apply IH in E. apply H in Eb. congruence.
Qed.

Lemma set_length : forall A (l l' : list A) i x, set l i x = Ok l' -> length l' = length l.
Proof.
  intros A l l' i x H. destruct (le_lt_dec (length l) i) as [L|L].
  - destruct (set_ge _ l i x L) as [s E]. congruence.
  - rewrite set_lt in H by auto. inversion H. apply upd_length.
Qed.

Lemma reach_shape : forall A M0 M, ncsr_build ROps A = Ok M0 -> ncsr_reach A M ->
  n_ptr ROps M = n_ptr ROps M0 /\ length (n_val ROps M) = nnz (n_ptr ROps M0) /\ length (n_diag ROps M) = m (n_ptr ROps M0).
Proof.
  intros A M0 M B R. induction R as [M E|M mu M' R [I1 [I2 I3]] E].
  - rewrite B in E; inversion E; subst M0. unfold ncsr_build in B. destruct (csr_build _ _) as [p| | |]; cbn [bind] in B; try discriminate.
    inversion B; subst; cbn [n_ptr n_val n_diag]. rewrite !repeat_length. auto.
  - unfold ncsr_evaluate in E.
    destruct (forM_up (m (n_ptr ROps M)) _ _) as [dg| | |] eqn:Ed; cbn [bind] in E; try discriminate.
    destruct (forM_up (nnz (n_ptr ROps M)) _ _) as [vl| | |] eqn:Ev; cbn [bind] in E; try discriminate.
    inversion E; subst; cbn [n_ptr n_val n_diag]. split; auto.
    apply forM_up_length in Ed; [|intros i v v' H]; [apply forM_up_length in Ev; [|intros i v v' H]|].
    + toR; split; congruence.
    + destruct (get (val (n_ptr ROps M)) i) as [p| | |]; cbn [bind] in H; try discriminate.
      destruct (deref ROps A p) as [e| | |]; cbn [bind] in H; try discriminate.
      destruct (ne_eval ROps e mu) as [x| | |]; cbn [bind] in H; try discriminate. eapply set_length; eauto.
    + toR. destruct (get v i) as [q| | |]; cbn [bind] in H; try discriminate.
      destruct (get (diag (n_ptr ROps M)) i) as [p| | |]; cbn [bind] in H; try discriminate.
      destruct (deref ROps A p) as [e| | |]; cbn [bind] in H; try discriminate.
      destruct (ne_eval ROps e mu) as [x| | |]; cbn [bind] in H; try discriminate. eapply set_length; eauto.
Qed.

Lemma find_key_map : forall V W (f : N -> V -> W) l k,
  find_key (map (fun kv => (fst kv, f (fst kv) (snd kv))) l) k = match find_key l k with Some v => Some (f k v) | None => None end.
Proof. induction l as [|[k' v] l IH]; intros k; cbn; auto. destruct (N.eqb_spec k' k); [subst; auto|auto]. Qed.

(** evaluating the symbolic matrix, after any history of earlier evaluations, gives exactly the numeric matrix
    built from the evaluated expressions *)
Lemma ncsr_evaluate_spec : forall (A : coo rexpr) (mu : list R),
  is_u32 (cm A + 1) -> is_u32 (length (elems A)) -> in_range (cm A) (elems A) -> NoDup (map fst (elems A)) ->
  has_diag (cm A) (elems A) -> (forall k e, In (k, e) (elems A) -> ne_ok e mu) ->
  exists C : csr R, csr_build 0 (coo_eval A mu) = Ok C /\
    (exists M0, ncsr_build ROps A = Ok M0) /\
    forall M, ncsr_reach A M -> exists M', ncsr_evaluate ROps A M mu = Ok M' /\ ncsr_csr ROps M' = C.
Proof.
  intros A mu Hm Hl R ND HD OK.
  set (P := mkCoo (map (fun kv => (fst kv, Some (fst kv))) (elems A)) (cm A)).
  assert (MF : map fst (elems P) = map fst (elems A)) by (cbn; rewrite map_map; auto).
  destruct (csr_build_ok (V := option N) None P) as [p [Ep [Wp [Mp [_ [[Nv Vp] [Dp _]]]]]]].
  - auto.
  - cbn. rewrite map_length; auto.
  - unfold in_range in *. cbn. rewrite Forall_forall in *. intros x Hx. apply in_map_iff in Hx. destruct Hx as [y [Ey Iy]]. subst x. cbn. apply R; auto.
  - rewrite MF; auto.
  - intros i Hi. rewrite MF. apply HD; auto.
  - assert (BM : ncsr_build ROps A = Ok (mkNcsr ROps p (repeat 0 (nnz p)) (repeat 0 (m p)))).
    { unfold ncsr_build. fold P. rewrite Ep. reflexivity. }
    assert (GP : forall k, In k (map fst (elems A)) -> good_ptr A mu (Some k)).
    { intros k Hk. destruct (find_key (elems A) k) as [e|] eqn:F.
      - exists k, e. split; auto. split; auto. apply (OK k e). apply find_key_in; auto.
      - exfalso. apply find_key_none in F. auto. }
    assert (GV : Forall (good_ptr A mu) (val p)).
    { rewrite Vp. rewrite Forall_forall. intros q Hq. apply in_map_iff in Hq. destruct Hq as [[k v] [Eq Iq]]. cbn in Eq; subst q.
      apply filter_In in Iq. destruct Iq as [Iq _]. apply (Permutation_in _ (sort_keys_perm _)) in Iq. cbn in Iq.
      apply in_map_iff in Iq. destruct Iq as [[k' e] [E I]]. inversion E; subst. cbn. apply GP. apply (in_map fst) in I. auto. }
    assert (GD : Forall (good_ptr A mu) (diag p)).
    { rewrite Forall_forall. intros q Hq. apply (In_nth _ _ None) in Hq. destruct Hq as [i [Hi Eq]].
      rewrite (wf_diag p Wp), Mp in Hi. cbn [cm P] in Hi, Dp. rewrite Dp in Eq by auto. cbn [elems P] in Eq.
      pose proof (find_key_map _ _ (fun k (_ : rexpr) => Some k) (elems A) (key i i)) as FM. cbn beta in FM. rewrite FM in Eq.
      destruct (find_key (elems A) (key i i)) eqn:F.
      - subst q. apply GP. apply HD; auto.
      - exfalso. apply find_key_none in F. apply F. apply HD; auto. }
    assert (CB : csr_build 0 (coo_eval A mu) = Ok (csr_map (gptr A mu) p)).
    { assert (EQ : coo_eval A mu = coo_map (gptr A mu) P).
      { unfold coo_eval, coo_map, P; cbn [elems cm]. f_equal. rewrite map_map. apply map_ext_in. intros [k e] I. cbn [fst snd gptr].
        rewrite (proj2 (find_key_some_iff (elems A) k e ND) I); auto. }
      rewrite EQ. change 0 with (gptr A mu None) at 1. rewrite csr_build_map, Ep. auto. }
    eexists; split; [exact CB|]. split; [eexists; exact BM|].
    intros M RM. destruct (reach_shape A _ M BM RM) as [S1 [S2 S3]]. cbn [n_ptr] in S1, S2, S3.
    eexists; split.
    + apply evaluate_ok; rewrite ?S1; auto. apply (wf_diag p Wp).
    + unfold ncsr_csr, csr_map. cbn [n_ptr n_val n_diag]. rewrite S1. auto.
Qed.

(** Dirichlet conditions commute with evaluation *)
Lemma sys_eval_wf : forall S mu, wf_sys (nexpr ROps) S -> wf_sys R (sys_eval S mu).
Proof.
  intros [A b] mu [ND [R [U C]]]. unfold wf_sys, sys_eval; cbn [sA sb coo_eval coo_map elems cm] in *.
  rewrite map_length, map_map. cbn [fst]. split; auto. split; auto.
  unfold in_range in *. rewrite Forall_forall in *. intros x Hx. apply in_map_iff in Hx. destruct Hx as [y [E I]]. subst; cbn. auto.
Qed.

Lemma find_key_eval : forall S mu i j,
  entry_opt R (sys_eval S mu) i j = match entry_opt (nexpr ROps) S i j with Some e => Some (ne_val e mu) | None => None end.
Proof.
  intros. unfold entry_opt, sys_eval; cbn [sA coo_eval coo_map elems].
  rewrite (find_key_map _ _ (fun _ e => ne_val e mu)). auto.
Qed.

Lemma nDirichlet_eval : forall (S : nsystem ROps) id (v : R) (mu : list R),
  wf_sys (nexpr ROps) S -> (id < length (sb _ S))%nat -> sys_ok S mu ->
  exists S' D, nDirichlet ROps S id v = Ok S' /\ wf_sys (nexpr ROps) S' /\ sys_ok S' mu /\
    dDirichlet ROps (sys_eval S mu) id v = Ok D /\ same_system (sys_eval S' mu) D.
Proof.
  intros S id v mu W Hid [OA Ob].
  destruct (addDirichlet_exact ROps (nexpr ROps) (ne_zero ROps) (ne_scale ROps) (ne_sub ROps) (ne_const ROps) S id v W Hid)
    as [S' [E [W' [L [EN [I B]]]]]].
  assert (LS : sdim (sys_eval S mu) = length (sb _ S)) by (unfold sdim, sys_eval; cbn [sb]; apply map_length).
  destruct (dDirichlet_ok (sys_eval S mu) id v (sys_eval_wf S mu W)) as [D [ED [WD [LD [ND BD]]]]]; [rewrite LS; auto|].
  exists S', D. split; [exact E|]. split; auto.
  assert (OKc : forall d : R, ne_ok (ne_const ROps d) mu) by (intros; constructor).
  assert (EO : forall i j e, entry_opt (nexpr ROps) S i j = Some e -> ne_ok e mu).
  { intros i j e F. unfold entry_opt in F. eapply OA. apply find_key_in; eauto. }
  assert (Bv : forall i w, i <> id -> nth_error (sb _ S) i = Some w -> ne_ok w mu).
  { intros i w _ F. apply Ob. eapply nth_error_In; eauto. }
  split; [split|split].
  - intros k e F.
    destruct W' as [ND' [R' [U' C']]].
    assert (FK : find_key (elems (sA _ S')) k = Some e) by (apply find_key_some_iff; auto).
    unfold in_range in R'. rewrite Forall_forall in R'. destruct (R' _ F) as [G K]. cbn in G, K.
    destruct (good_key_parts _ G) as [_ [_ [Le Ek]]]. rewrite L in K.
    assert (UK : k = ukey (krow k) (kcol k)) by (unfold ukey; rewrite Nat.min_l, Nat.max_r by auto; auto).
    rewrite UK in FK. pose proof (EN (krow k) (kcol k)) as Q. unfold entry_opt at 1 in Q. rewrite FK in Q.
    specialize (Q ltac:(lia) K).
    destruct (Nat.eqb (krow k) (kcol k)).
    + destruct (Nat.eqb (krow k) id); [inversion Q; apply OKc|]. eapply EO; eauto.
    + destruct (Nat.eqb (krow k) id || Nat.eqb (kcol k) id).
      * destruct (entry_opt (nexpr ROps) S (krow k) (kcol k)); inversion Q. apply OKc.
      * eapply EO; eauto.
  - intros e F. apply In_nth_error in F. destruct F as [i F]. destruct (Nat.eq_dec i id) as [Ei|Ei].
    + subst. rewrite I in F. inversion F. apply OKc.
    + destruct (nth_error (sb _ S) i) as [w|] eqn:Ew.
      * rewrite (B i w Ei Ew) in F. destruct (entry_opt (nexpr ROps) S i id) as [a|] eqn:Ea; inversion F; subst.
        -- apply ok_sub; [eauto|]. apply ok_scale. eauto.
        -- eauto.
      * apply nth_error_None in Ew. rewrite <- L in Ew. apply nth_error_None in Ew. congruence.
  - exact ED.
  - assert (LS' : sdim (sys_eval S' mu) = length (sb _ S)) by (unfold sdim, sys_eval; cbn [sb]; rewrite map_length; auto).
    apply same_intro; [rewrite LD; congruence| |]; rewrite ?LS'; rewrite LS in *.
    + intros i j Hi Hj. rewrite ND by auto. rewrite !sent_opt. rewrite !find_key_eval, EN by auto.
      assert (C0 : ne_val (ne_const ROps (zero ROps)) mu = 0) by (unfold ne_val, ne_const, suml; cbn; ring).
      assert (C1 : ne_val (ne_const ROps (one ROps)) mu = 1) by (unfold ne_val, ne_const, suml; cbn; ring).
      destruct (Nat.eqb_spec i j) as [Eij|Eij], (Nat.eqb_spec i id) as [Ei|Ei], (Nat.eqb_spec j id) as [Ej|Ej]; subst; cbn [orb]; try congruence; auto.
      * destruct (entry_opt (nexpr ROps) S id j); auto.
      * destruct (entry_opt (nexpr ROps) S i id); auto.
    + apply vget_list_ext; [unfold sdim in *; congruence|]. unfold sdim in LS'. rewrite LS'. intros i Hi. rewrite BD by auto.
      unfold vget, sys_eval; cbn [sb].
      assert (NV : forall (l : list rexpr) i e, nth_error l i = Some e -> nth i (map (fun e => ne_val e mu) l) 0 = ne_val e mu).
      { intros l k e F. apply nth_error_nth. apply (map_nth_error (fun e => ne_val e mu)). auto. }
      destruct (Nat.eqb_spec i id) as [Ei|Ei].
      * subst. rewrite (NV _ _ _ I). unfold ne_val, ne_const, suml; cbn. ring.
      * destruct (nth_error (sb _ S) i) as [w|] eqn:Ew; [|apply nth_error_None in Ew; lia].
        rewrite (NV _ _ _ (B i w Ei Ew)), (NV _ _ _ Ew). rewrite sent_opt.
        pose proof (find_key_eval S mu i id) as FE. unfold sys_eval in FE. cbn [sb] in FE. unfold sys_eval. rewrite FE.
        destruct (entry_opt (nexpr ROps) S i id) as [a|]; [rewrite val_sub, val_scale; ring|ring].
Qed.
