(** computePowerDensity: sigma |grad V|^2 on every triangle. *)
From Coq Require Import String.
From Coq Require Import List Arith ZArith NArith Bool Lia Reals Lra.
From Verif Require Import Base SumR AlgebraModel AlgebraSpec SolversModel SolversSpec Coo_proofs Csr_proofs System_proofs Algebra_bridge GeometryModel GeometrySpec Geometry_proofs DrawingModel DrawingSpec
  MeshModel MeshSpec Adjacency_proofs MeshGeo_proofs Fem_proofs Energy_proofs Wellposed_proofs LayersModel LayersSpec Voltage_proofs Layers_proofs Wiring_proofs.
Import ListNotations.
Local Open Scope R_scope.

Lemma fill_loop : forall (f : nat -> R) (body : nat -> list R -> res (list R)) n off (P : list R), (off + n <= length P)%nat ->
  (forall j P', (j < n)%nat -> body j P' = set P' (j + off) (f j)) ->
  exists P', forM_up n body P = Ok P' /\ length P' = length P /\ forall u, vget P' u = if in_block off n u then f (u - off)%nat else vget P u.
Proof.
  intros f body n off P H2 HB.
  destruct (forM_up_inv (list R) (fun j P' => length P' = length P /\ forall u, vget P' u = if in_block off j u then f (u - off)%nat else vget P u) body n P) as [b' [E [L K]]].
  - split; auto. intros u. destruct (in_block off 0 u) eqn:B; auto. apply in_block_spec in B. lia.
  - intros j b' Hj [L K]. rewrite HB by auto. rewrite set_lt by lia. eexists. split; [reflexivity|]. split; [rewrite upd_length; auto|].
    intros u. unfold vget at 1. destruct (Nat.eq_dec u (j + off)) as [->|N].
    + rewrite nth_upd by lia. rewrite Nat.eqb_refl. assert (in_block off (S j) (j + off) = true) as -> by (apply in_block_spec; lia). f_equal. lia.
    + rewrite nth_upd by lia. destruct (Nat.eqb_spec u (j + off)); [lia|]. change (nth u b' 0) with (vget b' u). rewrite K.
      destruct (in_block off j u) eqn:B.
      * apply in_block_spec in B. assert (in_block off (S j) u = true) as -> by (apply in_block_spec; lia). reflexivity.
      * destruct (in_block off (S j) u) eqn:B'; auto. apply in_block_spec in B'. assert (in_block off j u = true) by (apply in_block_spec; lia). congruence.
  - exists b'. auto.
Qed.
Lemma norm_sq : forall g : pt, dist g (P 0 0) * dist g (P 0 0) = norm2 g.
Proof. intros g. rewrite dist_sq. unfold norm2, P, px, py. cbn. ring. Qed.
Section Power.
Context {A : Type}.
Variable sigma : A -> R.
Lemma element_power_ok : forall (m : mesh ROps A) ps (E : list pt) j p g, properties m ps -> nth_error ps j = Some p -> nth_error E j = Some g ->
  element_power ROps A sigma m E j = Ok (sigma p * norm2 g).
Proof.
  intros m ps E j p g HP Hp Hg. unfold element_power.
  assert (exists a, nth_error (m_attrs m) j = Some a /\ nth_error (region_map (m_drawing m)) a = Some p) as [a [Ha Hr]].
  { unfold properties in HP. clear - HP Hp. revert j Hp. induction HP as [|a q l l' H F IH]; intros [|j] Hp; try discriminate Hp; cbn [nth_error] in *; [inversion Hp; subst; eauto|apply IH; auto]. }
  rewrite (get_nth_error _ _ _ _ Ha). cbn [bind]. pose proof (region_ptr ROps A (m_drawing m) a) as K. rewrite Hr in K. rewrite K. cbn [bind].
  rewrite (get_nth_error _ _ _ _ Hg). cbn [bind]. rewrite norm_R. cbn [bind]. f_equal. cbn [mul ROps]. rewrite norm_sq. apply Rmult_comm.
Qed.
Lemma vget_slice : forall (V : list R) off n i, (off + n <= length V)%nat -> (i < n)%nat -> vget (firstn n (skipn off V)) i = vget V (off + i).
Proof.
  intros V off n i H Hi. unfold vget. rewrite <- (firstn_skipn off V) at 2. rewrite app_nth2; rewrite firstn_length_le by lia; [|lia].
  replace (off + i - off)%nat with i by lia. rewrite <- (firstn_skipn n (skipn off V)) at 2. rewrite app_nth1; [reflexivity|]. rewrite firstn_length_le; auto. rewrite skipn_length. lia.
Qed.
Lemma gradient_ext : forall (m : mesh ROps A) x y t g, tri_in (length (m_points m)) t -> (forall i, (i < length (m_points m))%nat -> x i = y i) -> gradient_of m x t g -> gradient_of m y t g.
Proof. intros m x y t g [I0 [I1 I2]] H [G1 G2]. unfold gradient_of. rewrite <- !H by auto. auto. Qed.
Lemma triangles_cons : forall (m : mesh ROps A) ms, triangles (m :: ms) = (length (m_tris m) + triangles ms)%nat.
Proof. reflexivity. Qed.
Lemma layer_powers_ok : forall V (ms : list (mesh ROps A)) pss, Forall2 fem_ready ms pss -> forall noff eoff (Pw : list R), (noff + nodes ms <= length V)%nat -> (eoff + triangles ms <= length Pw)%nat ->
  exists P', layer_powers ROps A sigma V noff eoff ms Pw = Ok P' /\ length P' = length Pw /\ (forall u, (u < eoff)%nat -> vget P' u = vget Pw u) /\
    forall k m ps, nth_error ms k = Some m -> nth_error pss k = Some ps -> exists gs, Forall2 (gradient_of m (fun i => vget V (noff + before ms k + i))) (m_tris m) gs /\
      forall j p g, nth_error ps j = Some p -> nth_error gs j = Some g -> vget P' (eoff + triangles (firstn k ms) + j) = sigma p * norm2 g.
Proof.
  intros V ms pss F. induction F as [|m ps ms pss H F IH]; intros noff eoff Pw HV HP; cbn [layer_powers].
  - exists Pw. split; auto. split; auto. split; auto. intros [|k] m ps Hk; discriminate Hk.
  - rewrite nodes_cons in HV. rewrite triangles_cons in HP. unfold slice. destruct (Nat.leb_spec (noff + length (m_points m)) (length V)); [|lia]. cbn [bind].
    pose proof H as [[W1 [W2 W3]] [HPr [_ Hp]]].
    destruct (computeGrad_ok m (firstn (length (m_points m)) (skipn noff V)) W1 Hp) as [gs [EG FG]]; [rewrite firstn_length_le; auto; rewrite skipn_length; lia|].
    change (T ROps) with R in *. rewrite EG. cbn [bind].
    assert (FG' : Forall2 (gradient_of m (fun i => vget V (noff + i))) (m_tris m) gs).
    { clear - FG W1 HV. revert W1. induction FG as [|t g ts gs G FG IHf]; intros W1; constructor; inversion W1; subst; auto.
      eapply gradient_ext; eauto. intros i Hi. apply vget_slice; auto. lia. }
    pose proof (ready_len m ps H) as Lp. pose proof (F2_length _ _ _ _ _ FG) as Lg.
    set (dp := nth 0 ps). set (f := fun j => match nth_error ps j, nth_error gs j with Some p, Some g => sigma p * norm2 g | _, _ => 0 end).
    destruct (fill_loop f (fun j P => x <- element_power ROps A sigma m gs j ;; set P (j + eoff) x) (length (m_tris m)) eoff Pw) as [P1 [E1 [L1 V1]]]; [lia| |].
    { intros j P' Hj. destruct (nth_error ps j) as [p|] eqn:Ep; [|apply nth_error_None in Ep; lia]. destruct (nth_error gs j) as [g|] eqn:Eg; [|apply nth_error_None in Eg; lia].
      rewrite (element_power_ok m ps gs j p g HPr Ep Eg). cbn [bind]. unfold f. rewrite Ep, Eg. reflexivity. }
    change (T ROps) with R in *. rewrite E1. cbn [bind].
    destruct (IH (noff + length (m_points m))%nat (eoff + length (m_tris m))%nat P1) as [P' [E' [L' [V' K']]]]; [lia|lia|].
    exists P'. split; auto. split; [congruence|]. split.
    + intros u Hu. rewrite V' by lia. rewrite V1. destruct (in_block eoff (length (m_tris m)) u) eqn:B; auto. apply in_block_spec in B. lia.
    + intros [|k] m' ps' Hk Hps; cbn [nth_error] in *.
      * inversion Hk; subst m'. inversion Hps; subst ps'. exists gs. split.
        { eapply F2_impl; [|exact FG']. intros t g G. cbn beta in *. unfold gradient_of in *. unfold before, nodes. cbn [firstn map list_sum fold_right]. rewrite !Nat.add_0_r. exact G. }
        intros j p g Hj Hg. cbn [firstn]. change (triangles []) with 0%nat. rewrite Nat.add_0_r. assert (Lj : (j < length (m_tris m))%nat) by (rewrite <- Lp; apply nth_error_Some; congruence).
        rewrite V' by lia. rewrite V1. assert (in_block eoff (length (m_tris m)) (eoff + j) = true) as -> by (apply in_block_spec; lia).
        replace (eoff + j - eoff)%nat with j by lia. unfold f. rewrite Hj, Hg. reflexivity.
      * destruct (K' k m' ps' Hk Hps) as [gs' [FG'' KK]]. exists gs'. split.
        { eapply F2_impl; [|exact FG'']. intros t g G. cbn beta in *. unfold gradient_of in *. change (before (m :: ms) (S k)) with (length (m_points m) + before ms k)%nat. rewrite !Nat.add_assoc. exact G. }
        intros j p g Hj Hg. cbn [firstn]. rewrite triangles_cons. rewrite !Nat.add_assoc. apply KK; auto.
Qed.
Lemma vget_firstn_skipn : forall (l : list R) off n, (off + n <= length l)%nat -> firstn n (skipn off l) = map (fun j => vget l (off + j)) (seq 0 n).
Proof.
  intros l off n H. apply (nth_ext _ _ 0 0); rewrite firstn_length_le by (rewrite skipn_length; lia).
  - rewrite map_length, seq_length. reflexivity.
  - intros i Hi. fold (vget (firstn n (skipn off l)) i). rewrite vget_slice by auto. rewrite (nth_indep _ 0 (vget l (off + 0))) by (rewrite map_length, seq_length; auto).
    rewrite (map_nth (fun j => vget l (off + j))). rewrite seq_nth by auto. reflexivity.
Qed.
Lemma sum_powers : forall (ts : list tri) (ps : list A) (gs : list pt) (w : nat -> R) (area : tri -> R) off, length ps = length ts -> length gs = length ts ->
  (forall j p g, nth_error ps j = Some p -> nth_error gs j = Some g -> w (off + j)%nat = sigma p * norm2 g) ->
  suml (combine ts (map w (seq off (length ts)))) (fun tx => snd tx * area (fst tx)) = suml (combine ts (combine ps gs)) (fun tx => sigma (fst (snd tx)) * norm2 (snd (snd tx)) * area (fst tx)).
Proof.
  induction ts as [|t ts IH]; intros [|p ps] [|g gs] w area off Lp Lg H; try discriminate Lp; try discriminate Lg; [reflexivity|].
  cbn [length seq map combine]. rewrite !suml_cons. cbn [fst snd]. rewrite (IH ps gs w area (S off)); [|cbn in *; lia|cbn in *; lia|].
  - f_equal. f_equal. rewrite <- (Nat.add_0_r off). apply (H 0%nat p g); reflexivity.
  - intros j p' g' Hp Hg. replace (S off + j)%nat with (off + S j)%nat by lia. apply H; auto.
Qed.
Lemma triangles_lt : forall (ms : list (mesh ROps A)) k m, nth_error ms k = Some m -> (triangles (firstn k ms) + length (m_tris m) <= triangles ms)%nat.
Proof.
  induction ms as [|m0 ms IH]; intros [|k] m H; try discriminate H; cbn [nth_error firstn] in *; rewrite triangles_cons.
  - inversion H; subst. change (triangles []) with 0%nat. lia.
  - specialize (IH _ _ H). rewrite triangles_cons. lia.
Qed.
Lemma power_ok : forall (ms : list (mesh ROps A)) pss (V : list R), Forall2 fem_ready ms pss -> (nodes ms <= length V)%nat ->
  exists Pw, computePowerDensity ROps A sigma ms V = Ok Pw /\ length Pw = triangles ms /\
    forall k m ps, nth_error ms k = Some m -> nth_error pss k = Some ps ->
      let Pk := firstn (length (m_tris m)) (skipn (triangles (firstn k ms)) Pw) in
      exists gs, Forall2 (gradient_of m (fun i => vget V (before ms k + i))) (m_tris m) gs /\
        (forall j p g, nth_error ps j = Some p -> nth_error gs j = Some g -> vget Pk j = sigma p * norm2 g) /\
        ((forall p, In p ps -> 0 <= sigma p) -> forall w : R, In w Pk -> 0 <= w) /\
        (all_used m -> forall S, cd_getFemSystem ROps A sigma m = Ok S ->
           m_depth m * sum_tris m Pk (fun t (w : R) => w * tri_area m t) = quad (sdim S) (value 0 (sA R S)) (fun i => vget V (before ms k + i))).
Proof.
  intros ms pss V F HV. unfold computePowerDensity. rewrite total_sum. change (list_sum (map (fun m => length (m_tris m)) ms)) with (triangles ms).
  destruct (layer_powers_ok V ms pss F 0 0 (repeat 0 (triangles ms))) as [P' [E [L [_ K]]]]; [cbn; lia|rewrite repeat_length; cbn; lia|].
  exists P'. split; [exact E|]. rewrite repeat_length in L. split; [exact L|]. intros k m ps Hk Hps. set (Pk := firstn (length (m_tris m)) (skipn (triangles (firstn k ms)) P')).
  destruct (K k m ps Hk Hps) as [gs [FG KV]]. exists gs. cbn [Nat.add] in *. split; [exact FG|].
  destruct (F2_nth _ _ _ _ _ F _ _ Hk) as [ps' [Hps' Rm]]. rewrite Hps in Hps'. inversion Hps'; subst ps'.
  pose proof (ready_len m ps Rm) as Lp. pose proof (F2_length _ _ _ _ _ FG) as Lg. pose proof (triangles_lt ms k m Hk) as LT.
  assert (EP : Pk = map (fun j => vget P' (triangles (firstn k ms) + j)) (seq 0 (length (m_tris m)))) by (apply vget_firstn_skipn; rewrite <- L in LT; exact LT).
  split; [|split].
  - intros j p g Hp Hg. assert (Lj : (j < length (m_tris m))%nat) by (rewrite <- Lp; apply nth_error_Some; congruence). unfold Pk. rewrite vget_slice; [apply KV; auto|rewrite <- L in LT; exact LT|auto].
  - intros Hs w Hw. rewrite EP in Hw. apply in_map_iff in Hw. destruct Hw as [j [<- Hj]]. apply in_seq in Hj.
    destruct (nth_error ps j) as [p|] eqn:Ep; [|apply nth_error_None in Ep; lia]. destruct (nth_error gs j) as [g|] eqn:Eg; [|apply nth_error_None in Eg; lia].
    rewrite (KV j p g Ep Eg). apply Rmult_le_pos; [apply Hs; eapply nth_error_In; eauto|]. unfold norm2; apply Rplus_le_le_0_compat; (apply Rle_0_sqr || apply pow2_ge_0).
  - intros Um S ES. destruct (cd_energy m ps sigma Rm Um) as [S' [ES' [_ [LS [_ [Q _]]]]]]. rewrite ES in ES'. inversion ES'; subst S'. rewrite LS, (Q _ gs FG).
    f_equal. unfold sum_tris. rewrite EP. apply (sum_powers (m_tris m) ps gs (fun j => vget P' (triangles (firstn k ms) + j)) (tri_area m) 0); auto.
Qed.
Lemma layer_powers_short : forall V (ms : list (mesh ROps A)) pss, Forall2 fem_ready ms pss -> forall noff eoff (Pw : list R), (noff <= length V)%nat -> (length V < noff + nodes ms)%nat -> (eoff + triangles ms <= length Pw)%nat ->
  is_ub (layer_powers ROps A sigma V noff eoff ms Pw).
Proof.
  intros V ms pss F. induction F as [|m ps ms pss H F IH]; intros noff eoff Pw HV0 HV HP; cbn [layer_powers]; [change (@nodes ROps A []) with 0%nat in HV; lia|].
  rewrite nodes_cons in HV. rewrite triangles_cons in HP. unfold slice. destruct (Nat.leb_spec (noff + length (m_points m)) (length V)); [|eexists; reflexivity]. cbn [bind].
  pose proof H as [[W1 [W2 W3]] [HPr [_ Hp]]].
  destruct (computeGrad_ok m (firstn (length (m_points m)) (skipn noff V)) W1 Hp) as [gs [EG FG]]; [rewrite firstn_length_le; auto; rewrite skipn_length; lia|].
  change (T ROps) with R in *. rewrite EG. cbn [bind].
  pose proof (ready_len m ps H) as Lp. pose proof (F2_length _ _ _ _ _ FG) as Lg.
  set (f := fun j => match nth_error ps j, nth_error gs j with Some p, Some g => sigma p * norm2 g | _, _ => 0 end).
  destruct (fill_loop f (fun j P => x <- element_power ROps A sigma m gs j ;; set P (j + eoff) x) (length (m_tris m)) eoff Pw) as [P1 [E1 [L1 V1]]]; [lia| |].
  { intros j P' Hj. destruct (nth_error ps j) as [p|] eqn:Ep; [|apply nth_error_None in Ep; lia]. destruct (nth_error gs j) as [g|] eqn:Eg; [|apply nth_error_None in Eg; lia].
    rewrite (element_power_ok m ps gs j p g HPr Ep Eg). cbn [bind]. unfold f. rewrite Ep, Eg. reflexivity. }
  change (T ROps) with R in *. rewrite E1. cbn [bind]. apply IH; lia.
Qed.
Lemma power_short : forall (ms : list (mesh ROps A)) pss (V : list R), Forall2 fem_ready ms pss -> (length V < nodes ms)%nat -> is_ub (computePowerDensity ROps A sigma ms V).
Proof.
  intros ms pss V F H. unfold computePowerDensity. rewrite total_sum. apply (layer_powers_short V ms pss F); [lia|auto|]. rewrite repeat_length. unfold triangles. cbn; lia.
Qed.
End Power.
