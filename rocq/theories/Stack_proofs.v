(** Voltages of several layers: lemmas for C95-C98. *)
From Coq Require Import String.
From Coq Require Import List Arith ZArith NArith Bool Lia Reals Lra.
From Verif Require Import Base SumR AlgebraModel AlgebraSpec Algebra_bridge GeometryModel GeometrySpec Geometry_proofs DrawingModel DrawingSpec
  MeshModel MeshSpec Adjacency_proofs Fem_proofs Energy_proofs LayersModel LayersSpec Voltage_proofs Layers_proofs Wiring_proofs Pin_proofs CotSpec Cot_proofs PhysSpec Phys_proofs StackSpec.
Import ListNotations.
Local Open Scope R_scope.

Fixpoint KL {A} (sigma : A -> R) (ms : list (mesh ROps A)) (pss : list (list A)) (u v : nat) : R :=
  match ms, pss with
  | m :: ms', ps :: pss' =>
      let n := length (m_points m) in
      if Nat.ltb u n then (if Nat.ltb v n then Kc sigma m ps u v else 0) else if Nat.ltb v n then 0 else KL sigma ms' pss' (u - n) (v - n)
  | _, _ => 0
  end.
Definition Kw {A} (sigma : A -> R) (ms : list (mesh ROps A)) (pss : list (list A)) (g : R -> R) (links : list (link ROps)) (es : list (nat * nat)) (a b : nat) : R :=
  KL sigma ms pss a b + suml (combine es (map k_R links)) (fun e => g (snd e) * lap (fst (fst e)) (snd (fst e)) a b).

Lemma KL_sym : forall A sigma (ms : list (mesh ROps A)) pss a b, KL sigma ms pss a b = KL sigma ms pss b a.
Proof.
  intros A sigma ms. induction ms as [|m ms IH]; intros [|ps pss] a b; try reflexivity. cbn [KL]. cbv zeta.
  destruct (Nat.ltb a _), (Nat.ltb b _); auto. apply Kc_sym.
Qed.
Lemma lap_sym : forall u v a b, lap u v a b = lap u v b a.
Proof. intros. unfold lap. ring. Qed.
Lemma Kw_sym : forall A sigma (ms : list (mesh ROps A)) pss g links es a b, Kw sigma ms pss g links es a b = Kw sigma ms pss g links es b a.
Proof. intros. unfold Kw. rewrite KL_sym. f_equal. apply suml_ext. intros. rewrite lap_sym. reflexivity. Qed.

Lemma blocks_KL : forall A sigma (ms : list (mesh ROps A)) pss Ss, Forall2 fem_ready ms pss -> Forall all_used ms -> Forall2 (fun m S => cd_getFemSystem ROps A sigma m = Ok S) ms Ss ->
  forall a b, (a < nodes ms)%nat -> (b < nodes ms)%nat -> blocks Ss a b = KL sigma ms pss a b.
Proof.
  intros A sigma ms pss Ss F. revert Ss. induction F as [|m ps ms pss Rd F IH]; intros Ss U E a b Ha Hb; [cbn in Ha; lia|]. inversion E as [|? S ? Ss' E1 E2]; subst. inversion U as [|? ? U1 U2]; subst.
  destruct (cd_values m ps sigma Rd U1) as [S1 [ES [_ [LS [_ [VM _]]]]]]. rewrite E1 in ES. injection ES as <-. rewrite nodes_cons in Ha, Hb. cbn [blocks KL]. cbv zeta. rewrite LS.
  destruct (Nat.ltb_spec a (length (m_points m))), (Nat.ltb_spec b (length (m_points m))); auto.
  - apply VM; auto.
  - apply IH; auto; lia.
Qed.
Lemma KL_act : forall A sigma (ms : list (mesh ROps A)) pss, Forall2 fem_ready ms pss -> forall x k m ps i, nth_error ms k = Some m -> nth_error pss k = Some ps -> (i < length (m_points m))%nat ->
  act (nodes ms) (KL sigma ms pss) x (before ms k + i) = act (length (m_points m)) (Kc sigma m ps) (share ms x k) i.
Proof.
  intros A sigma ms pss F. induction F as [|m0 ps0 ms pss Rd F IH]; intros x k m ps i Hk Hp Hi; [destruct k; discriminate Hk|].
  unfold act. rewrite nodes_cons, sumn_app. cbn [KL]. cbv zeta. destruct k as [|k]; cbn [nth_error] in Hk, Hp.
  - injection Hk as ->. injection Hp as ->. change (before (m :: ms) 0) with 0%nat. cbn [Nat.add]. destruct (Nat.ltb_spec i (length (m_points m))); [|lia].
    rewrite (sumn_0 (nodes ms)); [rewrite Rplus_0_r; apply sumn_ext; intros j Hj; destruct (Nat.ltb_spec j (length (m_points m))); [reflexivity|lia]|].
    intros j _. destruct (Nat.ltb_spec (length (m_points m) + j) (length (m_points m))); [lia|ring].
  - change (before (m0 :: ms) (S k)) with (length (m_points m0) + before ms k)%nat. destruct (Nat.ltb_spec (length (m_points m0) + before ms k + i) (length (m_points m0))); [lia|].
    rewrite (sumn_0 (length (m_points m0))).
    + rewrite Rplus_0_l. specialize (IH (fun j => x (length (m_points m0) + j)%nat) k m ps i Hk Hp Hi). unfold act in IH.
      replace (length (m_points m0) + before ms k + i - length (m_points m0))%nat with (before ms k + i)%nat by lia.
      rewrite (sumn_ext (nodes ms) _ (fun j => KL sigma ms pss (before ms k + i) j * x (length (m_points m0) + j)%nat)).
      * rewrite IH. apply sumn_ext. intros j _. unfold share. change (before (m0 :: ms) (S k)) with (length (m_points m0) + before ms k)%nat. rewrite Nat.add_assoc. reflexivity.
      * intros j Hj. destruct (Nat.ltb_spec (length (m_points m0) + j) (length (m_points m0))); [lia|]. replace (length (m_points m0) + j - length (m_points m0))%nat with j by lia. reflexivity.
    + intros j Hj. destruct (Nat.ltb_spec j (length (m_points m0))); [ring|lia].
Qed.
(** a sum over all nodes, layer by layer *)
Fixpoint layer_sum {A} (ms : list (mesh ROps A)) (k : nat) (h : nat -> nat -> R) : R :=
  match ms with [] => 0 | m :: ms' => sumn (length (m_points m)) (h k) + layer_sum ms' (S k) h end.
Lemma sumn_layers : forall A (ms : list (mesh ROps A)) (h : nat -> R), sumn (nodes ms) h = layer_sum ms 0 (fun k i => h (before ms k + i)%nat).
Proof.
  intros A ms h.
  assert (G : forall (ms : list (mesh ROps A)) k0 f off, (forall k i, f (k0 + k)%nat i = h (off + before ms k + i)%nat) -> layer_sum ms k0 f = sumn (nodes ms) (fun j => h (off + j)%nat)).
  { clear ms. induction ms as [|m ms IH]; intros k0 f off E; [reflexivity|]. cbn [layer_sum]. rewrite nodes_cons, sumn_app. f_equal.
    - apply sumn_ext. intros i _. rewrite <- (Nat.add_0_r k0) at 1. rewrite E. change (before (m :: ms) 0) with 0%nat. f_equal. lia.
    - rewrite (IH (S k0) f (off + length (m_points m))%nat); [apply sumn_ext; intros; f_equal; lia|]. intros k i. replace (S k0 + k)%nat with (k0 + S k)%nat by lia. rewrite E.
      change (before (m :: ms) (S k)) with (length (m_points m) + before ms k)%nat. f_equal. lia. }
  rewrite (G ms 0%nat _ 0%nat); [apply sumn_ext; intros; reflexivity|]. intros; reflexivity.
Qed.
Lemma KL_quad : forall A sigma (ms : list (mesh ROps A)) pss, Forall2 fem_ready ms pss -> forall x ws, length ws = length ms ->
  (forall k m ps, nth_error ms k = Some m -> nth_error pss k = Some ps -> nth_error ws k = Some (quad (length (m_points m)) (Kc sigma m ps) (share ms x k))) ->
  quad (nodes ms) (KL sigma ms pss) x = suml ws (fun w => w).
Proof.
  intros A sigma ms pss F x ws L H. rewrite quad_act, sumn_layers.
  assert (Q : forall ms' pss' ws' k0, Forall2 fem_ready ms' pss' -> length ws' = length ms' -> (forall k, nth_error ms' k = nth_error ms (k0 + k)) -> (forall k, nth_error pss' k = nth_error pss (k0 + k)) -> (forall k, nth_error ws' k = nth_error ws (k0 + k)) ->
    layer_sum ms' k0 (fun k i => x (before ms k + i)%nat * act (nodes ms) (KL sigma ms pss) x (before ms k + i)) = suml ws' (fun w => w)).
  { intros ms' pss' ws' k0 F'. revert ws' k0. induction F' as [|m ps ms' pss' Rd F' IH]; intros [|w ws'] k0 L' H1 H2 H3; try discriminate L'; [reflexivity|]. cbn [layer_sum]. rewrite suml_cons. f_equal.
    - pose proof (H1 0%nat) as E1. pose proof (H2 0%nat) as E2. pose proof (H3 0%nat) as E3. rewrite Nat.add_0_r in E1, E2, E3. cbn [nth_error] in E1, E2, E3. symmetry in E1, E2, E3.
      rewrite (H k0 m ps E1 E2) in E3. injection E3 as <-. rewrite quad_act. apply sumn_ext. intros i Hi. rewrite (KL_act A sigma ms pss F x k0 m ps i E1 E2 Hi). reflexivity.
    - cbn in L'. apply IH; [lia|intros k; specialize (H1 (S k))|intros k; specialize (H2 (S k))|intros k; specialize (H3 (S k))]; cbn [nth_error] in *; rewrite Nat.add_succ_r in *; cbn [Nat.add]; auto. }
  apply (Q ms pss ws 0%nat); auto.
Qed.
Lemma lap_act : forall n u v x a, (u < n)%nat -> (v < n)%nat -> act n (lap u v) x a = (delta a u - delta a v) * (x u - x v).
Proof.
  intros n u v x a Hu Hv. unfold act, lap. rewrite (sumn_ext n _ (fun j => (delta a u - delta a v) * (delta j u * x j) + - (delta a u - delta a v) * (delta j v * x j))) by (intros; ring).
  rewrite sumn_plus, !sumn_scal, !delta_sum by auto. ring.
Qed.
Lemma act_plus : forall n K L x i, act n (fun a b => K a b + L a b) x i = act n K x i + act n L x i.
Proof. intros. unfold act. rewrite <- sumn_plus. apply sumn_ext. intros. ring. Qed.
Lemma act_suml : forall X n (l : list X) (f : X -> nat -> nat -> R) x i, act n (fun a b => suml l (fun e => f e a b)) x i = suml l (fun e => act n (f e) x i).
Proof.
  intros X n l f x i. induction l as [|e l IH]; [unfold suml; cbn; unfold act; apply sumn_0; intros; ring|]. rewrite suml_cons, <- IH, <- act_plus. apply act_ext_K. intros. rewrite suml_cons. reflexivity.
Qed.
Lemma Kw_act : forall A sigma (ms : list (mesh ROps A)) pss g links es x a, wired ms links es -> act (nodes ms) (Kw sigma ms pss g links es) x a =
  act (nodes ms) (KL sigma ms pss) x a + suml (combine es (map k_R links)) (fun e => g (snd e) * ((delta a (fst (fst e)) - delta a (snd (fst e))) * (x (fst (fst e)) - x (snd (fst e))))).
Proof.
  intros A sigma ms pss g links es x a W. unfold Kw. rewrite act_plus, act_suml. f_equal. apply suml_ext. intros e He. rewrite act_scale_K.
  pose proof (wired_bounded ms links es W) as WB. unfold bounded_conns in WB. rewrite Forall_forall in WB. destruct (WB e He) as [H1 [H2 _]]. rewrite lap_act; auto.
Qed.
Lemma combine_links : forall (links : list (link ROps)) (es : list (nat * nat)) (f : nat * nat -> R -> R), suml (combine es (map k_R links)) (fun e => f (fst e) (snd e)) = suml (combine links es) (fun ke => f (snd ke) (k_R (fst ke))).
Proof. induction links as [|k links IH]; intros [|e es] f; try reflexivity. cbn [map combine]. rewrite !suml_cons, IH. reflexivity. Qed.
Lemma links_quad : forall A (ms : list (mesh ROps A)) g links es x, wired ms links es ->
  quad (nodes ms) (fun a b => suml (combine es (map k_R links)) (fun e => g (snd e) * lap (fst (fst e)) (snd (fst e)) a b)) x = links_energy g links es x.
Proof.
  intros A ms g links es x W. rewrite quad_suml. unfold links_energy. rewrite <- (combine_links links es (fun e r => g r * (x (fst e) - x (snd e)) ^ 2)). apply suml_ext. intros e He.
  pose proof (wired_bounded ms links es W) as WB. unfold bounded_conns in WB. rewrite Forall_forall in WB. destruct (WB e He) as [H1 [H2 _]]. rewrite Wiring_proofs.quad_scal, lap_quad; auto.
Qed.
Lemma Kw_quad : forall A sigma (ms : list (mesh ROps A)) pss g links es x, wired ms links es ->
  quad (nodes ms) (Kw sigma ms pss g links es) x = quad (nodes ms) (KL sigma ms pss) x + links_energy g links es x.
Proof. intros A sigma ms pss g links es x W. unfold Kw. rewrite quad_plus, links_quad; auto. Qed.
Lemma F2_len : forall X Y (P : X -> Y -> Prop) l l', Forall2 P l l' -> length l = length l'.
Proof. intros X Y P l l' F. induction F; cbn; auto. Qed.
Lemma power_quad : forall A sigma (ms : list (mesh ROps A)) pss g links es x w, ready_layers ms pss -> wired ms links es ->
  (stack_power sigma ms pss g links es x w <-> w = quad (nodes ms) (Kw sigma ms pss g links es) x).
Proof.
  intros A sigma ms pss g links es x w [F [U _]] W. rewrite Kw_quad by auto.
  assert (LY : forall k m ps, nth_error ms k = Some m -> nth_error pss k = Some ps -> fem_ready m ps /\ all_used m).
  { intros k m ps Hk Hp. destruct (F2_nth _ _ _ _ _ F _ _ Hk) as [ps' [Hp' Rd]]. rewrite Hp in Hp'. injection Hp' as <-. split; auto. rewrite Forall_forall in U. apply U. eapply nth_error_In; eauto. }
  split.
  - intros [ws [L [H ->]]]. f_equal. symmetry. apply (KL_quad A sigma ms pss F); auto. intros k m ps Hk Hp. destruct (H k m ps Hk Hp) as [wk [E D]]. destruct (LY k m ps Hk Hp). apply dissipates_quad in D; auto. congruence.
  - intros ->. set (q := fun kmp : nat * (mesh ROps A * list A) => quad (length (m_points (fst (snd kmp)))) (Kc sigma (fst (snd kmp)) (snd (snd kmp))) (share ms x (fst kmp))).
    set (ws := map q (combine (seq 0 (length ms)) (combine ms pss))).
    assert (Q : forall k m ps, nth_error ms k = Some m -> nth_error pss k = Some ps -> nth_error ws k = Some (quad (length (m_points m)) (Kc sigma m ps) (share ms x k))).
    { intros k m ps Hk Hp. unfold ws. assert (Hn : nth_error (combine (seq 0 (length ms)) (combine ms pss)) k = Some (k, (m, ps))).
      { assert (CB : forall X Y (l : list X) (l' : list Y) k a b, nth_error l k = Some a -> nth_error l' k = Some b -> nth_error (combine l l') k = Some (a, b)).
        { clear. intros X Y l. induction l as [|x l IH]; intros [|y l'] [|k] a b H1 H2; try discriminate; cbn in *; [injection H1 as ->; injection H2 as ->; reflexivity|auto]. }
        apply CB; [|apply CB; auto]. assert (k < length ms)%nat by (eapply nth_error_lt; eauto). clear - H. rewrite (nth_error_nth' _ 0%nat) by (rewrite seq_length; auto). rewrite seq_nth by auto. reflexivity. }
      erewrite map_nth_error; [|exact Hn]. reflexivity. }
    assert (L : length ws = length ms) by (unfold ws; rewrite map_length, !combine_length, seq_length, <- (F2_len _ _ _ _ _ F); lia).
    exists ws. split; auto. split.
    + intros k m ps Hk Hp. destruct (LY k m ps Hk Hp). eexists. split; [apply Q; eauto|]. apply dissipates_quad; auto.
    + f_equal. apply (KL_quad A sigma ms pss F); auto.
Qed.
Lemma leaves_stack : forall A sigma (ms : list (mesh ROps A)) pss g links es x u c, ready_layers ms pss -> wired ms links es -> Forall (fun e : nat * nat => fst e <> snd e) es -> (u < nodes ms)%nat ->
  (stack_leaves sigma ms pss g links es x u c <-> c = act (nodes ms) (Kw sigma ms pss g links es) x u).
Proof.
  intros A sigma ms pss g links es x u c [F _] W Df Hu. rewrite Kw_act by auto.
  assert (LE : suml (combine es (map k_R links)) (fun e => g (snd e) * ((delta u (fst (fst e)) - delta u (snd (fst e))) * (x (fst (fst e)) - x (snd (fst e))))) =
    suml (combine links es) (fun ke => g (k_R (fst ke)) * ((if Nat.eqb u (fst (snd ke)) then x u - x (snd (snd ke)) else 0) + (if Nat.eqb u (snd (snd ke)) then x u - x (fst (snd ke)) else 0)))).
  { rewrite (combine_links links es (fun e r => g r * ((delta u (fst e) - delta u (snd e)) * (x (fst e) - x (snd e))))). apply suml_ext. intros [k [a b]] I. cbn [fst snd]. f_equal. unfold delta.
    rewrite Forall_forall in Df. pose proof (Df _ (in_combine_r _ _ _ _ I)) as N. cbn [fst snd] in N. destruct (Nat.eqb_spec u a), (Nat.eqb_spec u b); subst; try congruence; ring. }
  rewrite LE. destruct (node_exists A ms u Hu) as [k [m [i [Hk [Hi Eu]]]]]. destruct (F2_nth _ _ _ _ _ F _ _ Hk) as [ps [Hp Rd]]. split.
  - intros [k' [m' [ps' [i' [c0 [Hk' [Hp' [Hi' [Eu' [L ->]]]]]]]]]]. f_equal. destruct (node_unique A ms k k' m m' i i' Hk Hk' Hi Hi') as [<- <-]; [congruence|]. rewrite Hk in Hk'. injection Hk' as <-. rewrite Hp in Hp'. injection Hp' as <-.
    apply leaves_act in L; auto. rewrite L, Eu. symmetry. apply KL_act; auto.
  - intros ->. exists k, m, ps, i, (act (length (m_points m)) (Kc sigma m ps) (share ms x k) i). repeat (split; [solve [auto]|]). split; [apply leaves_act; auto|]. f_equal. rewrite Eu. apply KL_act; auto.
Qed.

(** ** what a settled stack satisfies *)
Lemma stack_map_fst : forall X (P : pt * R * nat -> X -> Prop) l us, Forall2 P l us -> map fst (combine us (map (fun c => snd (fst c)) l)) = us.
Proof. intros X P l us F. induction F as [|c id l ids C F IH]; [reflexivity|]. cbn [map combine fst]. rewrite IH. reflexivity. Qed.
Lemma stack_ids : forall A (ms : list (mesh ROps A)) (l : list (pt * R * nat)) us us', Forall2 (fun c u => addresses ms (fst (fst c)) (snd c) u) l us -> Forall2 (fun c u => addresses ms (fst (fst c)) (snd c) u) l us' -> us = us'.
Proof.
  intros A ms l us us' F. revert us'. induction F as [|c u l us C F IH]; intros us' F'; inversion F' as [|? u' ? us1 C' F1]; subst; auto. f_equal; [eapply addresses_unique; eauto|auto].
Qed.
Definition hangs (n : nat) (K : nat -> nat -> R) (us : list nat) (vs : list R) (x : nat -> R) : Prop :=
  (forall u v, In (u, v) (combine us vs) -> x u = v) /\ (forall i, (i < n)%nat -> ~ In i us -> act n K x i = 0).
Lemma stack_any : forall A sigma (ms : list (mesh ROps A)) links l us x S, stack_held ms l us -> ml_system ROps A sigma finite_R ms links = Ok S -> valid_system S -> sdim S = nodes ms -> (forall u, vget (sb R S) u = 0) ->
  (stack_settled sigma ms links l x <-> hangs (nodes ms) (value 0 (sA R S)) us (map (fun c => snd (fst c)) l) x).
Proof.
  intros A sigma ms links l us x S [F ND] ES VS LS VB.
  assert (RW : forall y i, (row_eq S y i <-> act (nodes ms) (value 0 (sA R S)) y i = 0)) by (intros y i; unfold row_eq, act; rewrite LS, VB; reflexivity).
  destruct (ml_voltages_ok A ms S l VS LS) as [S' [us' [E [VS' [LS' [F' Sol]]]]]].
  { clear - F. induction F as [|c u l us [m [i [H1 [H2 _]]]] F IH]; constructor; auto. exists m. split; auto. intros E. destruct H2 as [H2 _]. rewrite E in H2. cbn in H2. lia. }
  rewrite <- (stack_ids A ms l us us' F F') in Sol.
  assert (SI : stack_settled sigma ms links l x <-> solves S' x).
  { split; [intros [S1 [S2 [E1 [E2 E3]]]]; rewrite ES in E1; injection E1 as <-; rewrite E in E2; injection E2 as <-; auto|]. intros; exists S, S'; auto. }
  rewrite SI, Sol. set (L := combine us (map (fun c => snd (fst c)) l)) in *.
  assert (ND' : NoDup (map fst L)) by (unfold L; rewrite (stack_map_fst _ _ _ _ F); auto). unfold hangs. fold L.
  split; intros [H1 H2].
  - assert (H3 : forall u v, In (u, v) L -> x u = v) by (intros u v I; apply H1, last_value_nodup; auto).
    split; auto. intros i Hi NI. assert (Hr : row_eq S (imposed L x) i) by (apply H2; auto; rewrite LS; auto).
    apply RW in Hr. transitivity (act (nodes ms) (value 0 (sA R S)) (imposed L x) i); [|exact Hr]. apply act_ext. intros v _. unfold imposed. destruct (first_value _ v) as [w|] eqn:Q; auto. apply H3. apply first_value_in; auto.
  - split; [intros i v I; apply H1, last_value_nodup; auto|]. intros i Hi NI. rewrite LS in Hi. apply RW. transitivity (act (nodes ms) (value 0 (sA R S)) x i); [|exact (H2 i Hi NI)]. apply act_ext.
    intros v _. unfold imposed. destruct (first_value _ v) as [w|] eqn:Q; auto. symmetry. apply H1. apply first_value_in; auto.
Qed.
Lemma hangs_K : forall n K K' us vs x, (forall a b, (a < n)%nat -> (b < n)%nat -> K a b = K' a b) -> (hangs n K us vs x <-> hangs n K' us vs x).
Proof.
  intros n K K' us vs x E. unfold hangs. assert (Q : forall i, (i < n)%nat -> act n K x i = act n K' x i) by (intros; apply act_ext_K; auto).
  split; intros [H1 H2]; split; auto; intros i Hi NI; [rewrite <- Q|rewrite Q]; auto.
Qed.
Definition twice (r : R) : R := 2 / r.
Lemma stack_iff : forall A sigma (ms : list (mesh ROps A)) pss links es l us x, ready_layers ms pss -> laid ms links es -> stack_held ms l us ->
  (stack_settled sigma ms links l x <-> hangs (nodes ms) (Kw sigma ms pss twice links es) us (map (fun c => snd (fst c)) l) x).
Proof.
  intros A sigma ms pss links es l us x RD [W [Ac Ds]] Hh. destruct (wired_system sigma ms pss RD links es W Ac Ds) as [Ss [S [FE [FS [ES [VS [LS [_ [VB [VV _]]]]]]]]]].
  rewrite (stack_any A sigma ms links l us x S Hh ES VS LS VB). apply hangs_K. intros a b Ha Hb. rewrite VV by auto. unfold Kw. f_equal. destruct RD as [F [U _]]. apply blocks_KL; auto.
Qed.
Lemma laid_apart : forall A (ms : list (mesh ROps A)) pss links es, ready_layers ms pss -> laid ms links es -> Forall (fun e : nat * nat => fst e <> snd e) es.
Proof.
  intros A ms pss links es RD [W [Ac _]]. destruct W as [WJ _]. clear RD pss. revert Ac. induction WJ as [|k [u v] links es [[m [i [H1 [H2 H3]]]] [m' [j [H1' [H2' H3']]]]] WJ IH]; intros Ac; [constructor|].
  inversion Ac as [|? ? N Ac']; subst. constructor; [|auto]. cbn [fst snd] in *. subst u v. intros E. apply N. destruct (node_unique A ms _ _ _ _ _ _ H1 H1' (closest_lt _ _ _ H2) (closest_lt _ _ _ H2') E). auto.
Qed.

(** ** rows, sign and definiteness *)
Lemma KL_rows : forall A sigma (ms : list (mesh ROps A)) pss, Forall2 fem_ready ms pss -> forall a, (a < nodes ms)%nat -> sumn (nodes ms) (KL sigma ms pss a) = 0.
Proof.
  intros A sigma ms pss F a Ha. destruct (node_exists A ms a Ha) as [k [m [i [Hk [Hi ->]]]]]. destruct (F2_nth _ _ _ _ _ F _ _ Hk) as [ps [Hp Rd]].
  pose proof (KL_act A sigma ms pss F (fun _ => 1) k m ps i Hk Hp Hi) as E. unfold act, share in E.
  rewrite (sumn_ext _ _ (fun j => KL sigma ms pss (before ms k + i) j * 1)) by (intros; ring). rewrite E. rewrite (sumn_ext _ _ (Kc sigma m ps i)) by (intros; ring). apply Kc_rows; auto.
Qed.
Lemma Kw_rows : forall A sigma (ms : list (mesh ROps A)) pss g links es, ready_layers ms pss -> wired ms links es -> forall a, (a < nodes ms)%nat -> sumn (nodes ms) (Kw sigma ms pss g links es a) = 0.
Proof.
  intros A sigma ms pss g links es [F _] W a Ha. pose proof (Kw_act A sigma ms pss g links es (fun _ => 1) a W) as E. unfold act in E.
  rewrite (sumn_ext _ _ (fun j => Kw sigma ms pss g links es a j * 1)) by (intros; ring). rewrite E. rewrite (sumn_ext _ _ (KL sigma ms pss a)) by (intros; ring). rewrite KL_rows by auto.
  rewrite suml_0; [ring|]. intros; ring.
Qed.
Lemma KL_off : forall A sigma (ms : list (mesh ROps A)) pss, Forall2 fem_ready ms pss -> (forall k m ps, nth_error ms k = Some m -> nth_error pss k = Some ps -> 0 <= m_depth m /\ cotangents_nonneg sigma m ps) ->
  forall a b, a <> b -> KL sigma ms pss a b <= 0.
Proof.
  intros A sigma ms pss F. induction F as [|m ps ms pss Rd F IH]; intros H a b N; [cbn; lra|]. cbn [KL]. cbv zeta.
  destruct (Nat.ltb_spec a (length (m_points m))), (Nat.ltb_spec b (length (m_points m))); try lra.
  - rewrite Kc_off by auto. destruct (H 0%nat m ps eq_refl eq_refl) as [Hd Hc]. specialize (Hc a b N).
    match goal with |- _ * ?s <= 0 => assert (0 <= m_depth m / 2 * s) by (apply Rmult_le_pos; [lra|exact Hc]); lra end.
  - apply IH; [|lia]. intros k m' ps' Hk Hp. apply (H (S k)); auto.
Qed.
Lemma Kw_off : forall A sigma (ms : list (mesh ROps A)) pss links es, ready_layers ms pss -> (forall k m ps, nth_error ms k = Some m -> nth_error pss k = Some ps -> 0 <= m_depth m /\ cotangents_nonneg sigma m ps) ->
  Forall (fun k : link ROps => 0 < k_R k) links -> Forall (fun e : nat * nat => fst e <> snd e) es -> forall a b, a <> b -> Kw sigma ms pss twice links es a b <= 0.
Proof.
  intros A sigma ms pss links es [F _] H HR Df a b N. unfold Kw. pose proof (KL_off A sigma ms pss F H a b N) as Q.
  assert (suml (combine es (map k_R links)) (fun e => twice (snd e) * lap (fst (fst e)) (snd (fst e)) a b) <= 0); [|lra].
  set (cl := combine es (map k_R links)). assert (NN : 0 <= suml cl (fun e => twice (snd e) * - lap (fst (fst e)) (snd (fst e)) a b)).
  2:{ assert (EQ : suml cl (fun e => twice (snd e) * lap (fst (fst e)) (snd (fst e)) a b) = -1 * suml cl (fun e => twice (snd e) * - lap (fst (fst e)) (snd (fst e)) a b)).
    { rewrite <- suml_scal. apply suml_ext. intros e _. ring. }
    clearbody cl. change (T ROps) with R in *. rewrite EQ. lra. }
  unfold cl. apply suml_nonneg. intros [[u v] r] I. cbn [fst snd]. rewrite Forall_forall in *. pose proof (Df _ (in_combine_l _ _ _ _ I)) as D. cbn [fst snd] in D.
  apply in_combine_r in I. apply in_map_iff in I. destruct I as [k [Ek I]]. pose proof (HR k I) as Hr. cbn beta in Hr.
  apply Rmult_le_pos; [unfold twice, Rdiv; subst r; apply Rmult_le_pos; [lra|left; apply Rinv_0_lt_compat; exact Hr]|].
  unfold lap, delta. destruct (Nat.eqb_spec a u), (Nat.eqb_spec a v), (Nat.eqb_spec b u), (Nat.eqb_spec b v); subst; try congruence; lra.
Qed.
Lemma links_nonneg : forall (links : list (link ROps)) es x, Forall (fun k : link ROps => 0 < k_R k) links -> 0 <= links_energy twice links es x.
Proof.
  intros links es x HR. unfold links_energy. apply suml_nonneg. intros [k e] I. cbn [fst snd]. apply in_combine_l in I. rewrite Forall_forall in HR. pose proof (HR _ I) as Hr. cbn beta in Hr.
  apply Rmult_le_pos; [|apply pow2_ge_0]. unfold twice, Rdiv. apply Rmult_le_pos; [lra|]. left. apply Rinv_0_lt_compat. exact Hr.
Qed.
Lemma KL_mono : forall A (s1 s2 : A -> R) (ms : list (mesh ROps A)) pss, Forall2 fem_ready ms pss -> (forall ps p, In ps pss -> In p ps -> s1 p <= s2 p) -> Forall (fun m : mesh ROps A => 0 <= m_depth m) ms ->
  forall x, quad (nodes ms) (KL s1 ms pss) x <= quad (nodes ms) (KL s2 ms pss) x.
Proof.
  intros A s1 s2 ms pss F Hs Hd x. rewrite !quad_act, !sumn_layers.
  assert (Q : forall ms' pss' k0, Forall2 fem_ready ms' pss' -> (forall k, nth_error ms' k = nth_error ms (k0 + k)) -> (forall k, nth_error pss' k = nth_error pss (k0 + k)) ->
    layer_sum ms' k0 (fun k i => x (before ms k + i)%nat * act (nodes ms) (KL s1 ms pss) x (before ms k + i)) <= layer_sum ms' k0 (fun k i => x (before ms k + i)%nat * act (nodes ms) (KL s2 ms pss) x (before ms k + i))).
  { intros ms' pss' k0 F'. revert k0. induction F' as [|m ps ms' pss' Rd F' IH]; intros k0 H1 H2; [cbn; lra|]. cbn [layer_sum].
    apply Rplus_le_compat.
    - pose proof (H1 0%nat) as E1. pose proof (H2 0%nat) as E2. rewrite Nat.add_0_r in E1, E2. cbn [nth_error] in E1, E2. symmetry in E1, E2.
      assert (EQ : forall s, sumn (length (m_points m)) (fun i => x (before ms k0 + i)%nat * act (nodes ms) (KL s ms pss) x (before ms k0 + i)) = quad (length (m_points m)) (Kc s m ps) (share ms x k0)).
      { intros s. rewrite quad_act. apply sumn_ext. intros i Hi. rewrite (KL_act A s ms pss F x k0 m ps i E1 E2 Hi). reflexivity. }
      rewrite !EQ. rewrite Forall_forall in Hd. apply quad_mono; [auto|apply Hd; eapply nth_error_In; eauto|]. intros p Ip. apply (Hs ps); auto. eapply nth_error_In; eauto.
    - apply IH; intros k; [specialize (H1 (S k))|specialize (H2 (S k))]; cbn [nth_error] in *; rewrite Nat.add_succ_r in *; cbn [Nat.add]; auto. }
  apply (Q ms pss 0%nat); auto.
Qed.
Lemma KL_nonneg : forall A sigma (ms : list (mesh ROps A)) pss, Forall2 fem_ready ms pss -> (forall ps p, In ps pss -> In p ps -> 0 <= sigma p) -> Forall (fun m : mesh ROps A => 0 <= m_depth m) ms ->
  forall x, 0 <= quad (nodes ms) (KL sigma ms pss) x.
Proof.
  intros A sigma ms pss F Hs Hd x. apply Rle_trans with (quad (nodes ms) (KL (fun _ => 0) ms pss) x); [|apply KL_mono; auto].
  right. symmetry. assert (Z : forall (ms : list (mesh ROps A)) pss a b, KL (fun _ : A => 0) ms pss a b = 0).
  { clear. induction ms as [|m ms IH]; intros [|ps pss] a b; try reflexivity. cbn [KL]. cbv zeta. destruct (Nat.ltb a _), (Nat.ltb b _); auto. unfold Kc. apply suml_0. intros. ring. }
  unfold quad. apply sumn_0. intros. apply sumn_0. intros. rewrite Z. ring.
Qed.
Lemma Kw_definite : forall A sigma (ms : list (mesh ROps A)) pss links es us, ready_layers ms pss -> laid ms links es -> Forall (fun k : link ROps => 0 < k_R k) links ->
  (forall ps p, In ps pss -> In p ps -> 0 < sigma p) -> Forall (fun m : mesh ROps A => 0 < m_depth m) ms -> grounded ms es us ->
  forall z, (forall i, In i us -> z i = 0) -> (exists i, (i < nodes ms)%nat /\ z i <> 0) -> 0 < quad (nodes ms) (Kw sigma ms pss twice links es) z.
Proof.
  intros A sigma ms pss links es us RD [W [Ac Ds]] HR Hs Hd Gr z Z N. destruct (wired_system sigma ms pss RD links es W Ac Ds) as [Ss [S [FE [FS [ES [VS [LS [_ [VB [VV [_ HQ]]]]]]]]]]].
  destruct (wired_definite sigma ms pss RD links es Ss S W HR Hs Hd FE LS HQ us Gr) as [_ D]. rewrite LS in D.
  rewrite <- (quad_ext_K _ (value 0 (sA R S))); [apply D; auto|]. intros a b Ha Hb. rewrite VV by auto. unfold Kw. f_equal. destruct RD as [F [U _]]. apply blocks_KL; auto.
Qed.
Lemma hung_call : forall A (ms : list (mesh ROps A)) l us i, stack_held ms l us -> In i us -> exists c, In c l /\ In (i, snd (fst c)) (combine us (map (fun c => snd (fst c)) l)).
Proof.
  intros A ms l us i [F _] I. induction F as [|c id l ids C F IH]; [destruct I|]. destruct I as [<-|I]; [exists c; cbn; auto|]. destruct (IH I) as [c' [I1 I2]]. exists c'. cbn. auto.
Qed.
Lemma hung_range : forall A (ms : list (mesh ROps A)) l us i, stack_held ms l us -> In i us -> (i < nodes ms)%nat.
Proof.
  intros A ms l us i [F _] I. induction F as [|c id l ids C F IH]; [destruct I|]. destruct I as [<-|I]; [eapply addresses_lt; eauto|auto].
Qed.
Lemma stack_held_vals : forall A (ms : list (mesh ROps A)) (l l' : list (pt * R * nat)) us, stack_held ms l us -> map (fun c => (fst (fst c), snd c)) l' = map (fun c => (fst (fst c), snd c)) l -> stack_held ms l' us.
Proof.
  intros A ms l l' us [F ND] E. split; auto. clear ND. revert l' E. induction F as [|c id l ids C F IH]; intros [|c' l'] E; try discriminate E; constructor; cbn in E; injection E as E1 E2 E3; [rewrite E1, E2; auto|auto].
Qed.
