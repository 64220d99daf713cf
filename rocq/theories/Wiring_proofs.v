(** Consequences of the block structure: independence of the layers, conservation of current, energy, solvability. *)
From Coq Require Import String.
From Coq Require Import List Arith ZArith NArith Bool Lia Reals Lra.
From Verif Require Import Base SumR AlgebraModel AlgebraSpec SolversModel SolversSpec Coo_proofs Csr_proofs System_proofs Algebra_bridge GeometryModel GeometrySpec Geometry_proofs DrawingModel DrawingSpec
  MeshModel MeshSpec MeshGeo_proofs Fem_proofs Energy_proofs Wellposed_proofs LayersModel LayersSpec Voltage_proofs Layers_proofs.
Import ListNotations.
Local Open Scope R_scope.

(** ** Any list of interconnections *)
Definition bounded_conns (n : nat) (l : list (nat * nat * R)) : Prop := Forall (fun e => (fst (fst e) < n)%nat /\ (snd (fst e) < n)%nat /\ snd e <> 0) l.
Lemma conns_any : forall l (M : coo R), valid_coo M -> is_u32 (cm M) -> bounded_conns (cm M) l ->
  exists M', conns l M = Ok M' /\ valid_coo M' /\ cm M' = cm M /\ (forall a b, touched M a b -> touched M' a b) /\
    forall a b, (a < cm M)%nat -> (b < cm M)%nat -> (forall e, In e l -> fst e <> (a, b) /\ fst e <> (b, a) /\ (a = b -> fst (fst e) <> a /\ snd (fst e) <> a)) -> value 0 M' a b = value 0 M a b.
Proof.
  induction l as [|[[u v] r] l IH]; intros M W U B; unfold conns; cbn [forM_list].
  - exists M. repeat split; auto; apply W.
  - inversion B as [|? ? [Hu [Hv Hr]] B']; subst. cbn [fst snd] in *. destruct (conn_ok M u v r W U Hu Hv Hr) as [M1 [E1 [W1 [C1 [T1 V1]]]]]. rewrite E1. cbn [bind].
    destruct (IH M1 W1) as [M' [E' [W' [C' [T' V']]]]]; [rewrite C1; auto|rewrite C1; auto|]. fold (conns l M1). exists M'. split; auto. split; auto. split; [congruence|]. split; [intros; auto|].
    intros a b Ha Hb N. rewrite V'; [|rewrite C1; auto|rewrite C1; auto|intros e He; apply N; cbn; auto]. rewrite V1 by auto.
    destruct (N ((u, v), r)) as [N1 [N2 N3]]; [cbn; auto|]. cbn [fst snd] in *.
    assert (on2 u v a b = false) as ->. { unfold on2. destruct (Nat.eqb_spec a u), (Nat.eqb_spec b v), (Nat.eqb_spec a v), (Nat.eqb_spec b u); subst; cbn; auto; exfalso; auto. }
    assert (K : on2 u u a b = false /\ on2 v v a b = false).
    { split; unfold on2; [destruct (Nat.eqb_spec a u), (Nat.eqb_spec b u)|destruct (Nat.eqb_spec a v), (Nat.eqb_spec b v)]; subst; cbn; auto; destruct (N3 eq_refl); congruence. }
    destruct K as [-> ->]. ring.
Qed.
(** ** No two between the same nodes *)
Definition lap (u v a b : nat) : R := (delta a u - delta a v) * (delta b u - delta b v).
Lemma conns_lap : forall l (M : coo R), valid_coo M -> is_u32 (cm M) -> bounded_conns (cm M) l ->
  ForallOrdPairs (fun e f => fst e <> fst f /\ fst e <> (snd (fst f), fst (fst f))) l ->
  Forall (fun e => fst (fst e) <> snd (fst e) /\ value 0 M (fst (fst e)) (snd (fst e)) = 0) l ->
  exists M', conns l M = Ok M' /\ valid_coo M' /\ cm M' = cm M /\ (forall a b, touched M a b -> touched M' a b) /\
    forall a b, (a < cm M)%nat -> (b < cm M)%nat -> value 0 M' a b = value 0 M a b + suml l (fun e => 2 / snd e * lap (fst (fst e)) (snd (fst e)) a b).
Proof.
  induction l as [|[[u v] r] l IH]; intros M W U B D Z; unfold conns; cbn [forM_list].
  - exists M. repeat split; auto; try apply W. intros. unfold suml. cbn. ring.
  - inversion B as [|? ? [Hu [Hv Hr]] B']; subst. inversion Z as [|? ? [Nuv Zuv] Z']; subst. inversion D as [|? ? D1 D2]; subst. cbn [fst snd] in *.
    destruct (conn_ok M u v r W U Hu Hv Hr) as [M1 [E1 [W1 [C1 [T1 V1]]]]]. rewrite E1. cbn [bind]. fold (conns l M1).
    assert (V1' : forall a b, (a < cm M)%nat -> (b < cm M)%nat -> value 0 M1 a b = value 0 M a b + 2 / r * lap u v a b).
    { intros a b Ha Hb. rewrite V1 by auto. unfold on2, lap, delta.
      destruct (Nat.eqb_spec a u), (Nat.eqb_spec b v), (Nat.eqb_spec a v), (Nat.eqb_spec b u); subst; cbn [andb orb]; try congruence; try ring.
      - rewrite Zuv. ring.
      - rewrite (value_sym M), Zuv. ring. }
    destruct (IH M1 W1) as [M' [E' [W' [C' [T' V']]]]]; try (rewrite C1; auto); auto.
    + rewrite Forall_forall in *. intros [[u' v'] r'] I. destruct (Z' _ I) as [N' Z2]. destruct (D1 _ I) as [Q1 Q2]. destruct (B' _ I) as [Hu' [Hv' _]]. cbn [fst snd] in *. split; auto.
      rewrite V1' by auto. rewrite Z2. unfold lap, delta.
      destruct (Nat.eqb_spec u' u), (Nat.eqb_spec u' v), (Nat.eqb_spec v' u), (Nat.eqb_spec v' v); subst; try congruence; try ring.
    + exists M'. split; auto. split; auto. split; [congruence|]. split; [intros; auto|]. intros a b Ha Hb. rewrite V' by (rewrite C1; auto). rewrite V1' by auto.
      rewrite suml_cons. cbn [fst snd]. ring.
Qed.
Lemma delta_sum : forall n u (x : nat -> R), (u < n)%nat -> sumn n (fun i => delta i u * x i) = x u.
Proof.
  intros n u x H. rewrite (sumn_ext n _ (fun i => if Nat.eqb i u then x i else 0)); [apply sumn_delta; auto|]. intros i _. unfold delta. destruct (Nat.eqb i u); ring.
Qed.
Lemma lap_quad : forall n u v x, (u < n)%nat -> (v < n)%nat -> quad n (lap u v) x = (x u - x v) ^ 2.
Proof.
  intros n u v x Hu Hv. unfold quad, lap.
  assert (Q : forall w, sumn n (fun j => (delta j u - delta j v) * w j) = w u - w v).
  { intros w. rewrite (sumn_ext n _ (fun j => delta j u * w j - delta j v * w j)) by (intros; ring). rewrite sumn_minus, !delta_sum by auto. reflexivity. }
  rewrite (sumn_ext n _ (fun i => (delta i u - delta i v) * (x i * (x u - x v)))).
  - rewrite Q. ring.
  - intros i _. rewrite (sumn_ext n _ (fun j => (x i * (delta i u - delta i v)) * ((delta j u - delta j v) * x j))) by (intros; ring). rewrite sumn_scal, Q. ring.
Qed.
Lemma lap_rowsum : forall n u v a, (u < n)%nat -> (v < n)%nat -> sumn n (lap u v a) = 0.
Proof.
  intros n u v a Hu Hv. unfold lap. rewrite sumn_scal, sumn_minus.
  rewrite (sumn_ext n (fun i => delta i u) (fun i => delta i u * (fun _ => 1) i)) by (intros; ring). rewrite (sumn_ext n (fun i => delta i v) (fun i => delta i v * (fun _ => 1) i)) by (intros; ring).
  rewrite !delta_sum by auto. ring.
Qed.
Lemma quad_plus : forall n a b x, quad n (fun i j => a i j + b i j) x = quad n a x + quad n b x.
Proof.
  intros. unfold quad. rewrite <- sumn_plus. apply sumn_ext. intros i _. rewrite <- sumn_plus. apply sumn_ext. intros. ring.
Qed.
Lemma quad_ext : forall n a b x, (forall i j, (i < n)%nat -> (j < n)%nat -> a i j = b i j) -> quad n a x = quad n b x.
Proof. intros. unfold quad. apply sumn_ext. intros i Hi. apply sumn_ext. intros j Hj. rewrite H by auto. reflexivity. Qed.
Lemma quad_scal : forall n c a x, quad n (fun i j => c * a i j) x = c * quad n a x.
Proof. intros. unfold quad. rewrite <- sumn_scal. apply sumn_ext. intros i _. rewrite <- sumn_scal. apply sumn_ext. intros. ring. Qed.
Lemma quad_suml : forall X n (l : list X) (f : X -> nat -> nat -> R) x, quad n (fun i j => suml l (fun e => f e i j)) x = suml l (fun e => quad n (f e) x).
Proof.
  intros X n l f x. induction l as [|e l IH].
  - unfold suml. cbn. unfold quad. apply sumn_0. intros. apply sumn_0. intros. ring.
  - rewrite suml_cons, <- IH. rewrite <- quad_plus. apply quad_ext. intros. rewrite suml_cons. reflexivity.
Qed.

(** ** Blocks *)
Lemma blocks_nodes : forall A (ms : list (mesh ROps A)) Ss, Forall2 (@layer_system A) ms Ss -> forall k l m m' S i j, nth_error ms k = Some m -> nth_error ms l = Some m' -> nth_error Ss k = Some S ->
  (i < length (m_points m))%nat -> (j < length (m_points m'))%nat -> blocks Ss (before ms k + i) (before ms l + j) = if Nat.eqb k l then value 0 (sA R S) i j else 0.
Proof.
  intros A ms Ss F. induction F as [|m0 S0 ms Ss [_ [_ L0]] F IH]; intros k l m m' S i j Hk Hl HS Hi Hj; [destruct k; discriminate Hk|]. cbn [blocks]. rewrite L0.
  assert (B0 : before (m0 :: ms) 0 = 0%nat) by reflexivity. assert (BS : forall q, before (m0 :: ms) (Datatypes.S q) = (length (m_points m0) + before ms q)%nat) by reflexivity.
  destruct k as [|k], l as [|l]; cbn [nth_error] in *; rewrite ?B0, ?BS.
  - inversion Hk; subst. inversion Hl; subst. inversion HS; subst. cbn [Nat.add Nat.eqb]. destruct (Nat.ltb_spec i (length (m_points m'))), (Nat.ltb_spec j (length (m_points m'))); auto; lia.
  - inversion Hk; subst. destruct (Nat.ltb_spec (0 + i) (length (m_points m))); [|lia]. destruct (Nat.ltb_spec (length (m_points m) + before ms l + j) (length (m_points m))); [lia|]. reflexivity.
  - inversion Hl; subst. destruct (Nat.ltb_spec (length (m_points m') + before ms k + i) (length (m_points m'))); [lia|]. destruct (Nat.ltb_spec (0 + j) (length (m_points m'))); [|lia]. reflexivity.
  - destruct (Nat.ltb_spec (length (m_points m0) + before ms k + i) (length (m_points m0))); [lia|]. destruct (Nat.ltb_spec (length (m_points m0) + before ms l + j) (length (m_points m0))); [lia|].
    cbn [Nat.eqb]. rewrite <- (IH k l m m' S i j) by auto. f_equal; lia.
Qed.
Lemma node_unique : forall A (ms : list (mesh ROps A)) k l m m' i j, nth_error ms k = Some m -> nth_error ms l = Some m' -> (i < length (m_points m))%nat -> (j < length (m_points m'))%nat ->
  (before ms k + i = before ms l + j)%nat -> k = l /\ i = j.
Proof.
  intros A ms. induction ms as [|m0 ms IH]; intros k l m m' i j Hk Hl Hi Hj E; [destruct k; discriminate Hk|].
  assert (B0 : before (m0 :: ms) 0 = 0%nat) by reflexivity. assert (BS : forall q, before (m0 :: ms) (S q) = (length (m_points m0) + before ms q)%nat) by reflexivity.
  destruct k as [|k], l as [|l]; cbn [nth_error] in *; rewrite ?B0, ?BS in E.
  - auto.
  - inversion Hk; subst. lia.
  - inversion Hl; subst. lia.
  - destruct (IH k l m m' i j) as [-> ->]; auto. lia.
Qed.
Lemma node_exists : forall A (ms : list (mesh ROps A)) u, (u < nodes ms)%nat -> exists k m i, nth_error ms k = Some m /\ (i < length (m_points m))%nat /\ u = (before ms k + i)%nat.
Proof.
  intros A ms. induction ms as [|m0 ms IH]; intros u H; [cbn in H; lia|]. rewrite nodes_cons in H. destruct (lt_dec u (length (m_points m0))) as [L|L].
  - exists 0%nat, m0, u. auto.
  - destruct (IH (u - length (m_points m0))%nat) as [k [m [i [H1 [H2 H3]]]]]; [lia|]. exists (S k), m, i. split; auto. split; auto.
    change (before (m0 :: ms) (S k)) with (length (m_points m0) + before ms k)%nat. lia.
Qed.
Lemma blocks_rowsum : forall A (ms : list (mesh ROps A)) Ss, Forall2 (@layer_system A) ms Ss -> Forall (fun S => forall a, (a < sdim S)%nat -> sumn (sdim S) (value 0 (sA R S) a) = 0) Ss ->
  forall u, (u < nodes ms)%nat -> sumn (nodes ms) (blocks Ss u) = 0.
Proof.
  intros A ms Ss F. induction F as [|m S ms Ss [_ [_ L]] F IH]; intros Z u Hu; [cbn in Hu; lia|]. inversion Z as [|? ? Z1 Z2]; subst. rewrite nodes_cons in *. rewrite sumn_app. cbn [blocks]. rewrite L in *.
  destruct (Nat.ltb_spec u (length (m_points m))) as [H|H].
  - rewrite (sumn_ext _ _ (value 0 (sA R S) u)), Z1; auto.
    + rewrite sumn_0; [ring|]. intros i _. destruct (Nat.ltb_spec (length (m_points m) + i) (length (m_points m))); [lia|auto].
    + intros i Hi. destruct (Nat.ltb_spec i (length (m_points m))); [auto|lia].
  - rewrite sumn_0.
    + rewrite (sumn_ext _ _ (blocks Ss (u - length (m_points m)))); [rewrite IH; [ring|auto|lia]|]. intros i _.
      destruct (Nat.ltb_spec (length (m_points m) + i) (length (m_points m))); [lia|]. f_equal. lia.
    + intros i Hi. destruct (Nat.ltb_spec i (length (m_points m))); [auto|lia].
Qed.
Lemma blocks_loads : forall A (ms : list (mesh ROps A)) Ss, Forall2 (@layer_system A) ms Ss -> Forall (fun S => forall a, vget (sb R S) a = 0) Ss -> forall u, loads Ss u = 0.
Proof.
  intros A ms Ss F. induction F as [|m S ms Ss _ F IH]; intros Z u; [reflexivity|]. inversion Z as [|? ? Z1 Z2]; subst. cbn [loads]. destruct (Nat.ltb u (sdim S)); auto.
Qed.
Lemma blocks_quad : forall A (ms : list (mesh ROps A)) Ss, Forall2 (@layer_system A) ms Ss -> forall x, quad (nodes ms) (blocks Ss) x = layers_energy ms Ss x.
Proof.
  intros A ms Ss F. induction F as [|m S ms Ss [_ [_ L]] F IH]; intros x; [reflexivity|]. unfold layers_energy. cbn [length]. rewrite sumn_S_head. cbn [nth].
  specialize (IH (fun i => x (length (m_points m) + i)%nat)). unfold layers_energy in IH.
  rewrite (sumn_ext (length ms) _ (fun k => quad (sdim (nth k Ss (mkSys R (mkCoo [] 0) []))) (value 0 (sA R (nth k Ss (mkSys R (mkCoo [] 0) [])))) (fun i => x (length (m_points m) + (before ms k + i))%nat))).
  2:{ intros k _. unfold quad. apply sumn_ext. intros i _. apply sumn_ext. intros j _. change (before (m :: ms) (Datatypes.S k)) with (length (m_points m) + before ms k)%nat. rewrite !Nat.add_assoc. reflexivity. }
  rewrite <- IH. rewrite nodes_cons. unfold quad at 1. rewrite sumn_app. cbn [blocks]. rewrite L. f_equal.
  - unfold quad. apply sumn_ext. intros i Hi. rewrite sumn_app. destruct (Nat.ltb_spec i (length (m_points m))); [|lia].
    rewrite (sumn_0 (nodes ms)); [rewrite Rplus_0_r; apply sumn_ext; intros j Hj; destruct (Nat.ltb_spec j (length (m_points m))); [reflexivity|lia]|].
    intros j _. destruct (Nat.ltb_spec (length (m_points m) + j) (length (m_points m))); [lia|ring].
  - unfold quad. apply sumn_ext. intros i Hi. rewrite sumn_app. destruct (Nat.ltb_spec (length (m_points m) + i) (length (m_points m))); [lia|].
    rewrite (sumn_0 (length (m_points m))).
    + rewrite Rplus_0_l. apply sumn_ext. intros j Hj. destruct (Nat.ltb_spec (length (m_points m) + j) (length (m_points m))); [lia|].
      replace (length (m_points m) + i - length (m_points m))%nat with i by lia. replace (length (m_points m) + j - length (m_points m))%nat with j by lia. reflexivity.
    + intros j Hj. destruct (Nat.ltb_spec j (length (m_points m))); [ring|lia].
Qed.

(** ** The theorems *)
Section Wired.
Context {A : Type}.
Variable sigma : A -> R.
Variable ms : list (mesh ROps A).
Variable pss : list (list A).
Hypothesis ready : ready_layers ms pss.

Lemma wired_bounded : forall links es, wired ms links es -> bounded_conns (nodes ms) (combine es (map k_R links)).
Proof using.
  clear. intros links es [WJ WR]. revert WR. induction WJ as [|k e links es [J1 J2] WJ IH]; intros WR; [constructor|]. inversion WR as [|? ? R1 R2]; subst.
  cbn [map combine]. constructor; [|apply IH; auto]. cbn [fst snd]. split; [eapply addresses_lt; eauto|]. split; [eapply addresses_lt; eauto|exact R1].
Qed.
Lemma wired_nil : wired ms [] [].
Proof using. split; constructor. Qed.
Lemma combine_es : forall links es, wired ms links es -> map fst (combine es (map k_R links)) = es.
Proof using.
  clear. intros links es [WJ _]. induction WJ as [|k e links es _ WJ IH]; [reflexivity|]. cbn [map combine fst]. rewrite IH. reflexivity.
Qed.
Lemma F2_impl : forall X Y (P Q : X -> Y -> Prop) l l', (forall x y, P x y -> Q x y) -> Forall2 P l l' -> Forall2 Q l l'.
Proof using. intros X Y P Q l l' H F. induction F; constructor; auto. Qed.
Lemma F2_nth : forall X Y (P : X -> Y -> Prop) l l', Forall2 P l l' -> forall k x, nth_error l k = Some x -> exists y, nth_error l' k = Some y /\ P x y.
Proof using. intros X Y P l l' F. induction F as [|x y l l' H F IH]; intros [|k] z E; try discriminate E; cbn [nth_error] in *; [inversion E; subst; eauto|auto]. Qed.
Lemma F2_imp_r : forall X Y (P : X -> Y -> Prop) (Q : Y -> Prop) l l', Forall2 P l l' -> (forall x y, P x y -> Q y) -> Forall Q l'.
Proof using. intros X Y P Q l l' F H. induction F; constructor; eauto. Qed.

Lemma layers_independent : forall links es, wired ms links es -> exists Ss S, Forall2 (fun m Sm => cd_getFemSystem ROps A sigma m = Ok Sm) ms Ss /\
  ml_system ROps A sigma finite_R ms links = Ok S /\ valid_system S /\ sdim S = nodes ms /\ all_diag_touched (sA R S) /\ (forall u, vget (sb R S) u = 0) /\
  forall k l m m' Sk i j, nth_error ms k = Some m -> nth_error ms l = Some m' -> nth_error Ss k = Some Sk -> (i < length (m_points m))%nat -> (j < length (m_points m'))%nat ->
    (forall e, In e es -> e <> (before ms k + i, before ms l + j)%nat /\ e <> (before ms l + j, before ms k + i)%nat /\
       ((before ms k + i = before ms l + j)%nat -> fst e <> (before ms k + i)%nat /\ snd e <> (before ms k + i)%nat)) ->
    value 0 (sA R S) (before ms k + i) (before ms l + j) = if Nat.eqb k l then value 0 (sA R Sk) i j else 0.
Proof.
  intros links es W. destruct (merged sigma ms pss ready) as [Ss [S0 [E [FS [FP [W0 [L0 [D0 [V0 [B0 ML]]]]]]]]]]. rewrite (ML links es W). pose proof W0 as [Wc [C0 U0]]. fold (sdim S0) in C0, U0.
  destruct (conns_any (combine es (map k_R links)) (sA R S0) Wc) as [M' [E' [W' [C' [T' V']]]]]; [rewrite C0; auto|rewrite C0, L0; apply wired_bounded; auto|].
  rewrite E'. cbn [bind]. exists Ss. eexists. split; [|split; [reflexivity|]].
  { eapply F2_impl; [|exact FP]. intros m S [H _]. exact H. }
  split; [split; [exact W'|]; cbn [sA sb]; split; [exact (eq_trans C' C0)|exact U0]|]. split; [exact L0|]. cbn [sA sb]. split; [|split].
  - intros u Hu. apply T'. apply D0. rewrite <- C'. exact Hu.
  - intros u. rewrite B0. eapply blocks_loads; eauto. eapply F2_imp_r; [exact FP|]. intros m S [_ [_ H]]. exact H.
  - intros k l m m' Sk i j Hk Hl HS Hi Hj N. pose proof (before_lt A ms k m i Hk Hi) as B1. pose proof (before_lt A ms l m' j Hl Hj) as B2.
    rewrite V'; [|rewrite C0, L0; auto|rewrite C0, L0; auto|].
    + rewrite V0 by auto. eapply blocks_nodes; eauto.
    + intros [e r] He. apply N. rewrite <- (combine_es links es W). apply in_map_iff. exists (e, r). auto.
Qed.

Lemma across_blocks : forall links es Ss, Forall2 (@layer_system A) ms Ss -> wired ms links es -> across links -> forall u v, In (u, v) es -> u <> v /\ blocks Ss u v = 0.
Proof using.
  clear ready. intros links es Ss F [WJ _] Ac u v I. revert Ac. induction WJ as [|k e links es [J1 J2] WJ IH]; intros Ac; [destruct I|]. inversion Ac as [|? ? A1 A2]; subst.
  destruct I as [->|I]; [|auto]. cbn [fst snd] in *. destruct J1 as [m1 [i1 [N1 [C1 ->]]]]. destruct J2 as [m2 [i2 [N2 [C2 ->]]]]. split.
  - intros Eq. destruct (node_unique A ms _ _ _ _ _ _ N1 N2 (closest_lt _ _ _ C1) (closest_lt _ _ _ C2) Eq). auto.
  - destruct (F2_nth _ _ _ _ _ F _ _ N1) as [S [HS _]]. rewrite (blocks_nodes A ms Ss F _ _ _ _ S _ _ N1 N2 HS) by (eapply closest_lt; eauto).
    destruct (Nat.eqb_spec (k_layer1 k) (k_layer2 k)); [congruence|reflexivity].
Qed.
Lemma FOP_map : forall X Y (f : X -> Y) (P : Y -> Y -> Prop) l, ForallOrdPairs P (map f l) -> ForallOrdPairs (fun a b => P (f a) (f b)) l.
Proof using.
  intros X Y f P l. induction l as [|x l IH]; intros H; [constructor|]. cbn [map] in H. inversion H as [|? ? H1 H2]; subst. constructor; auto.
  rewrite Forall_forall in *. intros y Hy. apply H1. apply in_map. exact Hy.
Qed.
Lemma wired_system : forall links es, wired ms links es -> across links -> distinct es -> exists Ss S, Forall2 (fun m Sm => cd_getFemSystem ROps A sigma m = Ok Sm) ms Ss /\
  Forall2 (@layer_system A) ms Ss /\ ml_system ROps A sigma finite_R ms links = Ok S /\ valid_system S /\ sdim S = nodes ms /\ all_diag_touched (sA R S) /\ (forall u, vget (sb R S) u = 0) /\
  (forall a b, (a < nodes ms)%nat -> (b < nodes ms)%nat -> value 0 (sA R S) a b = blocks Ss a b + suml (combine es (map k_R links)) (fun e => 2 / snd e * lap (fst (fst e)) (snd (fst e)) a b)) /\
  (forall u, (u < nodes ms)%nat -> sumn (nodes ms) (value 0 (sA R S) u) = 0) /\
  (forall x, quad (nodes ms) (value 0 (sA R S)) x = layers_energy ms Ss x + links_energy (fun r => 2 / r) links es x).
Proof.
  intros links es W Ac Ds. destruct (merged sigma ms pss ready) as [Ss [S0 [E [FS [FP [W0 [L0 [D0 [V0 [B0 ML]]]]]]]]]]. rewrite (ML links es W). pose proof W0 as [Wc [C0 U0]]. fold (sdim S0) in C0, U0.
  pose proof (wired_bounded links es W) as WB.
  destruct (conns_lap (combine es (map k_R links)) (sA R S0) Wc) as [M' [E' [W' [C' [T' V']]]]]; [rewrite C0; auto|rewrite C0, L0; auto| | |].
  { unfold distinct in Ds. rewrite <- (combine_es links es W) in Ds. apply FOP_map in Ds. exact Ds. }
  { rewrite Forall_forall. intros [[u v] r] I. cbn [fst snd]. assert (Ie : In (u, v) es) by (rewrite <- (combine_es links es W); apply in_map_iff; exists (u, v, r); auto).
    destruct (across_blocks links es Ss FS W Ac u v Ie) as [N Z]. split; auto. unfold bounded_conns in WB. rewrite Forall_forall in WB. destruct (WB _ I) as [Hu [Hv _]]. rewrite V0; auto. }
  rewrite E'. cbn [bind]. exists Ss. eexists. split; [|split; [exact FS|split; [reflexivity|]]].
  { eapply F2_impl; [|exact FP]. intros m S [H _]. exact H. }
  split; [split; [exact W'|]; cbn [sA sb]; split; [exact (eq_trans C' C0)|exact U0]|]. split; [exact L0|]. cbn [sA sb]. split; [|split].
  - intros u Hu. apply T'. apply D0. rewrite <- C'. exact Hu.
  - intros u. rewrite B0. eapply blocks_loads; eauto. eapply F2_imp_r; [exact FP|]. intros m S [_ [_ H]]. exact H.
  - assert (VV : forall a b, (a < nodes ms)%nat -> (b < nodes ms)%nat -> value 0 M' a b = blocks Ss a b + suml (combine es (map k_R links)) (fun e => 2 / snd e * lap (fst (fst e)) (snd (fst e)) a b)).
    { intros a b Ha Hb. rewrite V' by (rewrite C0, L0; auto). rewrite V0 by auto. reflexivity. }
    unfold bounded_conns in WB. rewrite Forall_forall in WB. split; [exact VV|]. split.
    + intros u Hu. rewrite (sumn_ext _ _ (fun b => blocks Ss u b + suml (combine es (map k_R links)) (fun e => 2 / snd e * lap (fst (fst e)) (snd (fst e)) u b))) by (intros; apply VV; auto).
      rewrite sumn_plus. rewrite (blocks_rowsum A ms Ss FS); auto; [|eapply F2_imp_r; [exact FP|]; intros m S [_ [H _]]; exact H].
      rewrite <- suml_sumn. rewrite suml_0; [ring|]. intros e He. destruct (WB _ He) as [Hu1 [Hv1 _]]. rewrite sumn_scal, lap_rowsum by auto. ring.
    + intros x. rewrite (quad_ext _ _ _ x VV). rewrite quad_plus, (blocks_quad A ms Ss FS). f_equal. rewrite quad_suml. unfold links_energy.
      assert (K : forall (l : list (link ROps)) (es' : list (nat * nat)), (forall e, In e es' -> (fst e < nodes ms)%nat /\ (snd e < nodes ms)%nat) ->
        suml (combine es' (map k_R l)) (fun e => quad (nodes ms) (fun i j => 2 / snd e * lap (fst (fst e)) (snd (fst e)) i j) x) =
        suml (combine l es') (fun ke => 2 / k_R (fst ke) * (x (fst (snd ke)) - x (snd (snd ke))) ^ 2)).
      { clear. induction l as [|k l IH]; intros [|e es'] H; try reflexivity. cbn [map combine]. rewrite !suml_cons. cbn [fst snd]. rewrite IH by (intros; apply H; cbn; auto).
        f_equal. rewrite quad_scal. destruct (H e) as [H1 H2]; [cbn; auto|]. rewrite lap_quad by auto. reflexivity. }
      apply K. intros [u v] He. rewrite <- (combine_es links es W) in He. apply in_map_iff in He. destruct He as [[e r] [Ee He]]. cbn [fst] in Ee. subst e. destruct (WB _ He) as [Hu1 [Hv1 _]]. auto.
Qed.

(** *** Solvability *)
Lemma layer_flat : forall (m : mesh ROps A) ps S, fem_ready m ps -> all_used m -> cd_getFemSystem ROps A sigma m = Ok S -> (forall p, In p ps -> 0 < sigma p) -> 0 < m_depth m ->
  forall x, 0 <= quad (sdim S) (value 0 (sA R S)) x /\ (quad (sdim S) (value 0 (sA R S)) x = 0 -> forall u v, linked m u v -> x u = x v).
Proof using.
  clear. intros m ps S R U E Hs Hd x. split; [apply (cd_nonneg A m ps sigma S R U E); [intros; left; auto|left; auto]|].
  intros H. destruct (cd_values m ps sigma R U) as [S' [E' [VS [L [DT [VM VB]]]]]]. rewrite E in E'. inversion E'; subst S'. rewrite L in H.
  rewrite (quad_sum m (elements m ps) (fun x => fst (snd x)) (fun x => sigma (snd (snd x)) * m_depth m) (elements_ok m ps R) _ VM) in H.
  set (W := fun x : nat * (tri * A) => sigma (snd (snd x)) * m_depth m) in *.
  assert (HW : forall e, In e (elements m ps) -> 0 < W e). { intros e He. unfold W. apply Rmult_lt_0_compat; auto. apply Hs. eapply elements_prop; eauto. }
  assert (Z : forall t, In t (m_tris m) -> gx m t x = 0 /\ gy m t x = 0).
  { intros t Ht. destruct (elements_all A m ps t (ready_len m ps R) Ht) as [e [He <-]].
    assert (K0 : forall e0, In e0 (elements m ps) -> 0 <= tri_area m (fst (snd e0)) * W e0 * (gx m (fst (snd e0)) x * gx m (fst (snd e0)) x + gy m (fst (snd e0)) x * gy m (fst (snd e0)) x)).
    { intros e0 He0. assert (0 <= tri_area m (fst (snd e0))) by (unfold tri_area; pose proof (Rabs_pos (tri_turn m (fst (snd e0)))); lra).
      apply Rmult_le_pos; [apply Rmult_le_pos; auto; left; auto|].
      pose proof (sq_nonneg (gx m (fst (snd e0)) x)). pose proof (sq_nonneg (gy m (fst (snd e0)) x)). lra. }
    pose proof (suml_pos_zero _ _ _ K0 H e He) as K. cbn beta in K.
    destruct (elements_ok m ps R e He) as [_ ND].
    assert (PA : 0 < tri_area m (fst (snd e))) by (unfold tri_area; pose proof (Rabs_pos_lt _ ND); lra).
    assert (PW : 0 < tri_area m (fst (snd e)) * W e) by (apply Rmult_lt_0_compat; auto).
    apply Rmult_integral in K. destruct K as [K|K]; [lra|].
    set (a := gx m (fst (snd e)) x) in *. set (b := gy m (fst (snd e)) x) in *.
    pose proof (sq_nonneg a). pose proof (sq_nonneg b). assert (a * a = 0) by lra. assert (b * b = 0) by lra.
    split; [destruct (Rmult_integral a a)|destruct (Rmult_integral b b)]; auto. }
  intros u v Lk. destruct R as [[W1 _] [_ [_ Hp]]]. exact (linked_const A m x u v W1 Hp Z Lk).
Qed.
Lemma F2_nth_both : forall X Y (P : X -> Y -> Prop) l l', Forall2 P l l' -> forall k d d', (k < length l)%nat -> P (nth k l d) (nth k l' d').
Proof using. intros X Y P l l' F. induction F as [|x y l l' H F IH]; intros [|k] d d' Hk; cbn [length nth] in *; auto; try lia. apply IH. lia. Qed.
Lemma wired_definite : forall links es (Ss : list rsys) (S : rsys), wired ms links es -> Forall (fun k : link ROps => 0 < k_R k) links ->
  (forall ps p, In ps pss -> In p ps -> 0 < sigma p) -> Forall (fun m : mesh ROps A => 0 < m_depth m) ms ->
  Forall2 (fun m Sm => cd_getFemSystem ROps A sigma m = Ok Sm) ms Ss -> sdim S = nodes ms ->
  (forall x, quad (nodes ms) (value 0 (sA R S)) x = layers_energy ms Ss x + links_energy (fun r => 2 / r) links es x) ->
  forall ids, (forall v, (v < nodes ms)%nat -> exists u, In u ids /\ wired_to ms es u v) -> psd_off S ids.
Proof.
  intros links es Ss S W HR Hs Hd FE LS HQ ids HP. destruct ready as [FR [FU _]].
  assert (LY : forall k m, nth_error ms k = Some m -> exists ps Sk, nth_error Ss k = Some Sk /\ In ps pss /\ fem_ready m ps /\ all_used m /\ 0 < m_depth m /\ cd_getFemSystem ROps A sigma m = Ok Sk).
  { intros k m Hk. destruct (F2_nth _ _ _ _ _ FR _ _ Hk) as [ps [Hps Rm]]. destruct (F2_nth _ _ _ _ _ FE _ _ Hk) as [Sk [HS Em]]. exists ps, Sk. rewrite Forall_forall in *.
    repeat split; auto; try apply Rm; [eapply nth_error_In; eauto|apply FU; eapply nth_error_In; eauto|apply Hd; eapply nth_error_In; eauto]. }
  set (S0 := mkSys R (mkCoo [] 0) []) in *.
  assert (NN : forall x k, (k < length ms)%nat -> 0 <= quad (sdim (nth k Ss S0)) (value 0 (sA R (nth k Ss S0))) (fun i => x (before ms k + i)%nat)).
  { intros x k Hk. destruct (nth_error ms k) as [m|] eqn:Em; [|apply nth_error_None in Em; lia]. destruct (LY k m Em) as [ps [Sk [HS [Ip [Rm [Um [Dm Ek]]]]]]].
    rewrite (nth_error_nth _ _ S0 HS). apply (layer_flat m ps Sk Rm Um Ek); auto. intros p Hp. eapply Hs; eauto. }
  assert (NL : forall x ke, In ke (combine links es) -> 0 <= 2 / k_R (fst ke) * (x (fst (snd ke)) - x (snd (snd ke))) ^ 2).
  { intros x [k e] I. cbn [fst snd]. apply in_combine_l in I. rewrite Forall_forall in HR. pose proof (HR _ I) as Hr. cbn beta in Hr. apply Rmult_le_pos; [|apply pow2_ge_0].
    unfold Rdiv. apply Rmult_le_pos; [lra|]. left. apply Rinv_0_lt_compat. exact Hr. }
  assert (N1 : forall x, 0 <= layers_energy ms Ss x) by (intros x; unfold layers_energy; apply sumn_nonneg; intros k Hk; apply NN; auto).
  assert (N2 : forall x, 0 <= links_energy (fun r => 2 / r) links es x) by (intros x; unfold links_energy; apply suml_nonneg; intros ke I; apply NL; auto).
  unfold psd_off. rewrite LS. split.
  - intros x. rewrite HQ. pose proof (N1 x). pose proof (N2 x). lra.
  - intros x Hz [i [Hi Nz]]. rewrite HQ. destruct (Rle_lt_or_eq_dec _ _ (N1 x)) as [H1|H1]; [pose proof (N2 x); lra|]. destruct (Rle_lt_or_eq_dec _ _ (N2 x)) as [H2|H2]; [lra|]. exfalso.
    assert (Z1 : forall k m u v, nth_error ms k = Some m -> linked m u v -> x (before ms k + u)%nat = x (before ms k + v)%nat).
    { intros k m u v Hk Lk. destruct (LY k m Hk) as [ps [Sk [HS [Ip [Rm [Um [Dm Ek]]]]]]].
      pose proof (sumn_pos_zero (length ms) (fun k => quad (sdim (nth k Ss S0)) (value 0 (sA R (nth k Ss S0))) (fun i => x (before ms k + i)%nat)) (NN x) (eq_sym H1) k (nth_error_lt _ _ _ _ Hk)) as Q.
      cbn beta in Q. rewrite (nth_error_nth _ _ S0 HS) in Q. exact (proj2 (layer_flat m ps Sk Rm Um Ek (fun p Hp => Hs _ _ Ip Hp) Dm (fun i => x (before ms k + i)%nat)) Q u v Lk). }
    assert (Z2 : forall u v, In (u, v) es -> x u = x v).
    { intros u v I. assert (exists k, In (k, (u, v)) (combine links es)) as [k Ik].
      { destruct W as [WJ _]. clear - WJ I. induction WJ as [|k e links es _ WJ IH]; [destruct I|]. destruct I as [->|I]; [exists k; cbn; auto|]. destruct (IH I) as [k' H]. exists k'. cbn; auto. }
      pose proof (suml_pos_zero _ _ _ (NL x) (eq_sym H2) _ Ik) as Q. cbn beta in Q. cbn [fst snd] in Q. apply Rmult_integral in Q. apply in_combine_l in Ik. rewrite Forall_forall in HR. pose proof (HR _ Ik) as Hr. cbn beta in Hr.
      destruct Q as [Q|Q]; [exfalso; unfold Rdiv in Q; assert (0 < / k_R k) by (apply Rinv_0_lt_compat; auto); lra|].
      apply Rminus_diag_uniq. destruct (Req_dec (x u - x v) 0); auto. exfalso. apply (pow_nonzero (x u - x v) 2); auto. }
    destruct (HP i Hi) as [u [Hu Wt]]. apply Nz. rewrite <- (Hz u Hu). clear - Z1 Z2 Wt. symmetry. induction Wt as [|u k m v w Wt IH Hk Lk|u v w Wt IH I]; auto.
    + rewrite IH. eauto.
    + rewrite IH. destruct I as [I|I]; [apply Z2; auto|symmetry; apply Z2; auto].
Qed.
End Wired.
