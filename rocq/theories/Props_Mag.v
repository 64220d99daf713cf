(** Properties C91-C94: the physics of the magnetic potential, for given permeabilities (linear materials, or one step of the
    nonlinear solution). *)
From Coq Require Import String.
From Coq Require Import List Arith ZArith NArith Bool Lia Reals Lra Permutation.
From Verif Require Import Base SumR AlgebraModel AlgebraSpec Coo_proofs Algebra_bridge GeometryModel GeometrySpec Geometry_proofs DrawingModel DrawingSpec DrawingR_proofs
  MeshModel MeshSpec Adjacency_proofs Fem_proofs Energy_proofs MeshGeo_proofs Integral_proofs Magnet_proofs Pin_proofs DrawingR2_proofs Refine2_proofs Wellposed_proofs CotSpec Cot_proofs PhysSpec Phys_proofs MagSpec Mag_proofs Props_Mesh Props_Mesh2 Props_Phys.
Import ListNotations.
Local Open Scope R_scope.

(** ** C91: superposition and scale *)
(** two sets of currents and magnets: the solution for a combination of them is the combination of the solutions *)
Theorem C91_superposition : forall A (J1 J2 : A -> R) (M1 M2 : A -> pt) m ps es a b c mu x y p q, laid_out m ps es a b c -> permeabilities m mu ->
  clear_cut M1 m -> clear_cut M2 m -> clear_cut (fun s => mix p q (M1 s) (M2 s)) m ->
  potential J1 M1 m es mu x -> potential J2 M2 m es mu y ->
  potential (fun s => p * J1 s + q * J2 s) (fun s => mix p q (M1 s) (M2 s)) m es mu (fun v => p * x v + q * y v).
Proof.
  intros A J1 J2 M1 M2 m ps es a b c mu x y p q Lo Pm C1 C2 C3 Hx Hy.
  apply (laid_iff A J1 M1 m ps es mu a b c x Lo Pm C1) in Hx. apply (laid_iff A J2 M2 m ps es mu a b c y Lo Pm C2) in Hy.
  apply (laid_iff A _ _ m ps es mu a b c _ Lo Pm C3). destruct Hx as [Xa [Xb [Xc X]]], Hy as [Ya [Yb [Yc Y]]].
  split; [rewrite Xa, Ya; ring|]. split; [rewrite Xb, Yb; ring|]. split; [rewrite Xc, Yc; ring|]. intros i Hi N1 N2 N3. rewrite act_lin, X, Y, surf_lin, mload_lin by auto. ring.
Qed.
(** permeabilities k times as large: a potential k times as large *)
Theorem C91_permeability : forall A (J : A -> R) (M : A -> pt) m ps es a b c mu x k, laid_out m ps es a b c -> permeabilities m mu -> clear_cut M m -> k <> 0 ->
  (potential J M m es (map (Rmult k) mu) (fun v => k * x v) <-> potential J M m es mu x).
Proof.
  intros A J M m ps es a b c mu x k Lo Pm CC Hk.
  assert (Pm' : permeabilities m (map (Rmult k) mu)).
  { destruct Pm as [L H]. split; [rewrite map_length; auto|]. intros u I. apply in_map_iff in I. destruct I as [w [<- I]]. apply Rmult_integral_contrapositive_currified; auto. }
  rewrite (laid_iff A J M m ps es _ a b c _ Lo Pm' CC). rewrite (laid_iff A J M m ps es _ a b c _ Lo Pm CC). unfold in_balance.
  assert (E : forall i, act (length (m_points m)) (Km m (map (Rmult k) mu)) (fun v => k * x v) i = act (length (m_points m)) (Km m mu) x i).
  { intros i. unfold act. apply sumn_ext. intros j _. rewrite <- Rmult_assoc. f_equal. unfold Km, Kc.
    rewrite (suml_elements R (by_tri m (map (Rmult k) mu)) (map (Rmult k) mu) (fun tp => kloc (by_tri m (map (Rmult k) mu)) (fst tp) i j * (/ snd tp * m_depth (by_tri m (map (Rmult k) mu))))) by (apply Pm').
    rewrite (suml_elements R (by_tri m mu) mu (fun tp => kloc (by_tri m mu) (fst tp) i j * (/ snd tp * m_depth (by_tri m mu)))) by (apply Pm).
    change (m_depth (by_tri m (map (Rmult k) mu))) with 1. change (m_depth (by_tri m mu)) with 1. change (m_tris (by_tri m mu)) with (m_tris m). change (m_tris (by_tri m (map (Rmult k) mu))) with (m_tris m).
    rewrite Rmult_comm, <- suml_scal. change (kloc (by_tri m mu)) with (kloc m). change (kloc (by_tri m (map (Rmult k) mu))) with (kloc m).
    destruct Pm as [_ H]. clear - H Hk. revert H. generalize (m_tris m). induction mu as [|u mu IH]; intros ts H; destruct ts as [|t ts]; cbn [map combine]; auto.
    rewrite !suml_cons. cbn [fst snd]. rewrite IH by (intros; apply H; right; auto). f_equal. field. split; auto. apply H. left; auto. }
  assert (Z : forall r, k * r = 0 <-> r = 0) by (intros r; split; [intros Q; apply Rmult_integral in Q; tauto|intros ->; ring]).
  rewrite !Z. split; intros [H1 [H2 [H3 H4]]]; (split; [auto|split; [auto|split; [auto|]]]); intros i Hi N1 N2 N3; specialize (H4 i Hi N1 N2 N3); rewrite E in *; auto.
Qed.
(** everything enlarged or turned about the origin, the current densities kept: the potential grows with the square *)
Theorem C91_similar : forall A (J : A -> R) (M : A -> pt) m ps es a b c mu x k f, similarity k f -> f org = org -> laid_out m ps es a b c -> permeabilities m mu -> no_magnets M m ->
  (potential J M (carried f m) es mu (fun v => k * k * x v) <-> potential J M m es mu x).
Proof.
  intros A J M m ps es a b c mu x k f Sm Ho Lo Pm NM. pose proof Sm as [Hk _].
  rewrite (currents_iff (carried f m) ps es a b c M (laid_carried A k f m ps es a b c Sm Ho Lo) NM J mu _ Pm). rewrite (currents_iff m ps es a b c M Lo NM J mu _ Pm). rewrite carried_len.
  assert (K2 : k * k <> 0) by (apply Rmult_integral_contrapositive_currified; lra).
  assert (Z : forall r, k * k * r = 0 <-> r = 0) by (intros r; split; [intros Q; apply Rmult_integral in Q; tauto|intros ->; ring]). rewrite !Z.
  assert (E : forall i, act (length (m_points m)) (Km (carried f m) mu) (fun v => k * k * x v) i = k * k * act (length (m_points m)) (Km m mu) x i).
  { intros i. unfold act. rewrite <- sumn_scal. apply sumn_ext. intros j _. unfold Km. change (by_tri (carried f m) mu) with (carried f (by_tri m mu)).
    rewrite (carried_Kc k f Sm (by_tri m mu) (fun u => / u) mu i j (bt_ready A m ps mu (proj1 Lo) (proj1 Pm))). ring. }
  assert (S2 : forall i, surf J (carried f m) ps i = k * k * surf J m ps i).
  { intros i. unfold surf. rewrite <- suml_scal. change (elements (carried f m) ps) with (elements m ps). apply suml_ext. intros e He. destruct (elements_ok m ps (proj1 Lo) e He) as [Ht _].
    rewrite (carried_turn k f Sm m _ Ht). unfold on_corner. destruct (Nat.ltb 0 _); ring. }
  split; intros [H1 [H2 [H3 H4]]]; (split; [auto|split; [auto|split; [auto|]]]); intros i Hi N1 N2 N3; specialize (H4 i Hi N1 N2 N3); rewrite E, S2 in *.
  - apply Rmult_eq_reg_l in H4; auto.
  - rewrite H4. reflexivity.
Qed.
Print Assumptions C91_superposition.
Print Assumptions C91_permeability.
Print Assumptions C91_similar.

(** ** C92: reciprocity and energy *)
(** the flux that the currents J1 send through the circuit J2 is the flux that J2 sends through J1 *)
Theorem C92_reciprocity : forall A (J1 J2 : A -> R) (M : A -> pt) m ps es a b c mu x y, laid_out m ps es a b c -> permeabilities m mu -> no_magnets M m ->
  potential J1 M m es mu x -> potential J2 M m es mu y -> linkage J2 m ps x = linkage J1 m ps y.
Proof.
  intros A J1 J2 M m ps es a b c mu x y Lo Pm NM Hx Hy. destruct (rim_zero m ps es a b c M Lo NM J1 mu x Pm Hx) as [Xa [Xb Xc]]. destruct (rim_zero m ps es a b c M Lo NM J2 mu y Pm Hy) as [Ya [Yb Yc]].
  rewrite <- (test_with m ps es a b c M Lo NM J2 mu y x Pm Hy Xa Xb Xc), <- (test_with m ps es a b c M Lo NM J1 mu x y Pm Hx Ya Yb Yc). apply act_sym. apply Km_sym.
Qed.
(** the integral of B . H is the integral of J A *)
Theorem C92_energy : forall A (J : A -> R) (M : A -> pt) m ps es a b c mu x w, laid_out m ps es a b c -> permeabilities m mu -> no_magnets M m ->
  potential J M m es mu x -> stores m mu x w -> w = linkage J m ps x.
Proof.
  intros A J M m ps es a b c mu x w Lo Pm NM Hx Hw. apply (stores_quad A m ps mu x w) in Hw; [|apply Lo|apply Lo|apply Pm]. rewrite Hw. eapply energy_linkage; eauto.
Qed.
Print Assumptions C92_reciprocity.
Print Assumptions C92_energy.

(** ** C93: least energy *)
(** of all potentials that vanish on the rim, the solution has the least energy minus linkage, and no other has as little *)
Theorem C93_least : forall A (J : A -> R) (M : A -> pt) m ps es a b c mu x y w w', laid_out m ps es a b c -> permeable m mu -> no_magnets M m -> pins m [a; b; c] ->
  potential J M m es mu x -> y a = 0 -> y b = 0 -> y c = 0 -> stores m mu x w -> stores m mu y w' ->
  w / 2 - linkage J m ps x <= w' / 2 - linkage J m ps y /\
  (w' / 2 - linkage J m ps y <= w / 2 - linkage J m ps x -> forall i, (i < length (m_points m))%nat -> y i = x i).
Proof.
  intros A J M m ps es a b c mu x y w w' Lo Pp NM Pn Hx Ya Yb Yc Hw Hw'. assert (Pm := permeable_permeabilities A m mu Pp).
  apply (stores_quad A m ps mu x w) in Hw; [|apply Lo|apply Lo|apply Pm]. apply (stores_quad A m ps mu y w') in Hw'; [|apply Lo|apply Lo|apply Pm]. subst w w'.
  destruct (rim_zero m ps es a b c M Lo NM J mu x Pm Hx) as [Xa [Xb Xc]].
  rewrite (co_energy m ps es a b c M Lo NM J mu x y Pm Hx Ya Yb Yc). pose proof (Km_nonneg A m ps mu (proj1 Lo) Pp (fun v => y v - x v)) as P0. split; [lra|]. intros L i Hi.
  destruct (Req_dec (y i - x i) 0) as [Z|Z]; [lra|]. exfalso.
  assert (P1 := Km_definite A m ps mu [a; b; c] (proj1 Lo) (proj1 (proj2 Lo)) Pp Pn (fun v => y v - x v)). cbn beta in P1.
  assert (0 < quad (length (m_points m)) (Km m mu) (fun v => y v - x v)); [|lra]. apply P1; [|exists i; auto]. intros j [<-|[<-|[<-|[]]]]; lra.
Qed.
(** raising permeabilities never lowers the flux linked with the same currents *)
Theorem C93_raise : forall A (J : A -> R) (M : A -> pt) m ps es a b c mu nu x y, laid_out m ps es a b c -> permeable m mu -> permeable m nu -> Forall2 Rle mu nu -> no_magnets M m ->
  potential J M m es mu x -> potential J M m es nu y -> linkage J m ps x <= linkage J m ps y.
Proof.
  intros A J M m ps es a b c mu nu x y Lo P1 P2 F NM Hx Hy. assert (Q1 := permeable_permeabilities A m mu P1). assert (Q2 := permeable_permeabilities A m nu P2).
  destruct (rim_zero m ps es a b c M Lo NM J mu x Q1 Hx) as [Xa [Xb Xc]].
  pose proof (co_energy m ps es a b c M Lo NM J nu y x Q2 Hy Xa Xb Xc) as C. pose proof (Km_nonneg A m ps nu (proj1 Lo) P2 (fun v => x v - y v)). pose proof (Km_mono A m ps mu nu x (proj1 Lo) P1 P2 F).
  pose proof (energy_linkage m ps es a b c M Lo NM J mu x Q1 Hx). pose proof (energy_linkage m ps es a b c M Lo NM J nu y Q2 Hy). lra.
Qed.
Print Assumptions C93_least.
Print Assumptions C93_raise.

(** ** C94: sign *)
(** currents that nowhere flow backwards: the potential is nowhere negative *)
Theorem C94_sign : forall A (J : A -> R) (M : A -> pt) m ps es a b c mu x, laid_out m ps es a b c -> permeable m mu -> no_magnets M m -> pins m [a; b; c] -> reluctances_nonneg m mu ->
  (forall s, In s ps -> 0 <= J s) -> potential J M m es mu x -> forall i, (i < length (m_points m))%nat -> 0 <= x i.
Proof.
  intros A J M m ps es a b c mu x Lo Pp NM Pn Re HJ Hx i Hi. assert (Pm := permeable_permeabilities A m mu Pp). destruct (rim_zero m ps es a b c M Lo NM J mu x Pm Hx) as [Xa [Xb Xc]].
  set (y := fun v => Rabs (x v)). destruct (Rle_lt_dec 0 (x i)) as [|Neg]; auto. exfalso.
  assert (Y0 : y a = 0 /\ y b = 0 /\ y c = 0) by (unfold y; rewrite Xa, Xb, Xc, Rabs_R0; auto). destruct Y0 as [Ya [Yb Yc]].
  assert (Q : quad (length (m_points m)) (Km m mu) y <= quad (length (m_points m)) (Km m mu) x).
  { apply quad_clip; [apply Km_sym|apply (Km_rows A m ps mu (proj1 Lo) (proj1 Pm))|intros u v _ _ N; apply (Km_off A m ps mu (proj1 Lo) (proj1 Pm) Re); auto|].
    intros u v _ _. unfold y. pose proof (Rsqr_le_abs_1 (Rabs (x u) - Rabs (x v)) (x u - x v) (Rabs_triang_inv2 (x u) (x v))) as S. exact S. }
  pose proof (co_energy m ps es a b c M Lo NM J mu x y Pm Hx Ya Yb Yc) as C.
  pose proof (linkage_mono A J m ps x y (proj1 Lo) HJ (fun v => Rle_abs (x v))) as L.
  assert (P1 := Km_definite A m ps mu [a; b; c] (proj1 Lo) (proj1 (proj2 Lo)) Pp Pn (fun v => y v - x v)). cbn beta in P1.
  assert (0 < quad (length (m_points m)) (Km m mu) (fun v => y v - x v)); [|lra]. apply P1; [intros j [<-|[<-|[<-|[]]]]; lra|]. exists i. split; auto. unfold y. rewrite Rabs_left by auto. lra.
Qed.
(** more current everywhere: more potential everywhere *)
Theorem C94_monotone : forall A (J1 J2 : A -> R) (M : A -> pt) m ps es a b c mu x y, laid_out m ps es a b c -> permeable m mu -> no_magnets M m -> pins m [a; b; c] -> reluctances_nonneg m mu ->
  (forall s, In s ps -> J1 s <= J2 s) -> potential J1 M m es mu x -> potential J2 M m es mu y -> forall i, (i < length (m_points m))%nat -> x i <= y i.
Proof.
  intros A J1 J2 M m ps es a b c mu x y Lo Pp NM Pn Re HJ Hx Hy i Hi. assert (Pm := permeable_permeabilities A m mu Pp). assert (CC := no_magnets_clear A M m NM).
  assert (NM' : no_magnets (fun s => mix 1 (-1) (M s) (M s)) m).
  { intros r I. destruct (NM r I) as [p [E1 E2]]. exists p. split; auto. rewrite E2. unfold mix, org. rewrite !px_P, !py_P. f_equal; ring. }
  assert (D := C91_superposition A J2 J1 M M m ps es a b c mu y x 1 (-1) Lo Pm CC CC (no_magnets_clear A _ m NM') Hy Hx).
  assert (P0 : forall s, In s ps -> 0 <= (fun s => 1 * J2 s + -1 * J1 s) s) by (intros s I; specialize (HJ s I); lra).
  assert (S := C94_sign A _ _ m ps es a b c mu _ Lo Pp NM' Pn Re P0 D i Hi). cbn beta in S. lra.
Qed.
(** meshes without obtuse angles qualify, whatever the permeabilities *)
Theorem C94_acute : forall A (J : A -> R) (M : A -> pt) m ps es a b c mu x, laid_out m ps es a b c -> permeable m mu -> no_magnets M m -> pins m [a; b; c] -> never_obtuse m ->
  (forall s, In s ps -> 0 <= J s) -> potential J M m es mu x -> forall i, (i < length (m_points m))%nat -> 0 <= x i.
Proof. intros A J M m ps es a b c mu x Lo Pp NM Pn NO HJ Hx. eapply C94_sign; eauto. apply (acute_reluctances A m ps mu (proj1 Lo) Pp NO). Qed.
Print Assumptions C94_sign.
Print Assumptions C94_monotone.
Print Assumptions C94_acute.

(** ** cases that meet the hypotheses, and where they are needed *)
Lemma rim_of : forall A (m : mesh ROps A) L, NoDup L -> length L = 3%nat -> (forall j, In j L -> (j < length (m_points m))%nat /\ 0 < dist (pos m j) org) ->
  (forall i j, (i < length (m_points m))%nat -> ~ In i L -> In j L -> dist (pos m i) org < dist (pos m j) org) -> exists a b c, rim m a b c /\ forall i, In i [a; b; c] <-> In i L.
Proof.
  intros A m L ND L3 HL HF. destruct (C49_three_farthest (m_points m)) as [a [b [c [E [La [Lb [Lc [N1 [N2 [N3 [D1 [D2 [D3 D4]]]]]]]]]]]]].
  { destruct L as [|i [|j [|k [|]]]]; try discriminate L3. exists i, j, k. inversion ND as [|? ? X1 ND1]; subst. inversion ND1 as [|? ? X2 _]; subst. cbn in X1, X2.
    pose proof (HL i ltac:(cbn; auto)) as [? ?]. pose proof (HL j ltac:(cbn; auto)) as [? ?]. pose proof (HL k ltac:(cbn; auto)) as [? ?]. repeat split; auto; intuition. }
  assert (ND' : NoDup [a; b; c]) by (repeat constructor; cbn; intuition congruence).
  exists a, b, c. split; [repeat split; auto|].
  assert (Inc : forall i, In i [a; b; c] -> In i L).
  { intros i I. destruct (in_dec Nat.eq_dec i L) as [|NI]; auto. exfalso.
    assert (J : exists j, In j L /\ ~ In j [a; b; c]).
    { destruct (forallb (fun j => existsb (Nat.eqb j) [a; b; c]) L) eqn:F.
      - exfalso. rewrite forallb_forall in F. assert (G : incl (i :: L) [a; b; c]). { intros j [<-|Ij]; auto. specialize (F j Ij). apply existsb_exists in F. destruct F as [u [Iu Eu]]. apply Nat.eqb_eq in Eu. subst; auto. }
        apply NoDup_incl_length in G; [cbn [length] in G; lia|]. constructor; auto.
      - apply Bool.not_true_iff_false in F. rewrite forallb_forall in F. destruct (list_eq_dec Nat.eq_dec (filter (fun j => negb (existsb (Nat.eqb j) [a; b; c])) L) []) as [Z|Z].
        + exfalso. apply F. intros j Ij. destruct (existsb (Nat.eqb j) [a; b; c]) eqn:Q; auto. assert (X : In j (filter (fun j => negb (existsb (Nat.eqb j) [a; b; c])) L)) by (apply filter_In; rewrite Q; auto). rewrite Z in X. destruct X.
        + destruct (filter _ L) as [|j l] eqn:Q; [congruence|]. assert (X : In j (j :: l)) by (left; auto). rewrite <- Q in X. apply filter_In in X. destruct X as [X1 X2]. exists j. split; auto. intros I'.
          assert (existsb (Nat.eqb j) [a; b; c] = true) by (apply existsb_exists; exists j; split; auto; apply Nat.eqb_refl). rewrite H in X2. discriminate. }
    destruct J as [j [Ij Nj]]. cbn in Nj. assert (Li : (i < length (m_points m))%nat) by (destruct I as [<-|[<-|[<-|[]]]]; auto). specialize (HF i j Li NI Ij). destruct (HL j Ij) as [Lj _].
    assert (Dj : dist (pos m j) org <= dist (pos m c) org) by (apply D4; auto; intuition). unfold pos in *. destruct I as [<-|[<-|[<-|[]]]]; lra. }
  intros i. split; auto. apply NoDup_length_incl; auto. rewrite L3. cbn. lia.
Qed.
Lemma dist_org : forall x y, dist (P x y) org = sqrt (x * x + y * y).
Proof. intros. unfold dist, org. rewrite !px_P, !py_P. f_equal. ring. Qed.
Notation ues := (unique_edges (m_tris magnet_mesh)).
Lemma block_rim : exists a b c, rim magnet_mesh a b c /\ forall i, In i [a; b; c] <-> In i [1; 2; 3]%nat.
Proof.
  assert (Z : dist (P 0 0) org = 0) by apply dist_self.
  assert (D : forall j, In j [1; 2; 3]%nat -> 0 < dist (pos magnet_mesh j) org).
  { intros j [<-|[<-|[<-|[]]]]; unfold pos; cbn [m_points magnet_mesh block nth]; rewrite dist_org; apply sqrt_lt_R0; lra. }
  apply rim_of; auto.
  - repeat constructor; cbn; intuition discriminate.
  - intros j I. split; auto. cbn. destruct I as [<-|[<-|[<-|[]]]]; lia.
  - intros i j Hi NI Ij. cbn in Hi. assert (i = 0)%nat as -> by (cbn in NI; lia). change (pos magnet_mesh 0) with (P 0 0). rewrite Z. auto.
Qed.
Lemma block_laid : forall a b c, rim magnet_mesh a b c -> laid_out magnet_mesh [P 1 0; P 1 0] ues a b c.
Proof.
  intros a b c Ri. split; [exact magnet_ready|]. split; [intros v Hv; cbn in Hv; destruct v as [|[|[|[|v]]]]; [vm_compute; lia..|lia]|].
  split; [repeat constructor|]. split; [intros g [<-|[]]; exact block_solid|]. split; [|exact Ri]. cbn. repeat constructor.
Qed.
Lemma block_surf : forall J i, (i < 4)%nat -> surf J magnet_mesh [P 1 0; P 1 0] i = nth i [4; 2; 4; 2] 0 * (J (P 1 0) / 3).
Proof.
  assert (T1 : tri_turn magnet_mesh (0, 1, 2)%nat = 4) by (unfold tri_turn, turn, pos, t0, t1, t2; cbn [fst snd m_points magnet_mesh block nth]; rewrite !px_P, !py_P; ring).
  assert (T2 : tri_turn magnet_mesh (0, 2, 3)%nat = 4) by (unfold tri_turn, turn, pos, t0, t1, t2; cbn [fst snd m_points magnet_mesh block nth]; rewrite !px_P, !py_P; ring).
  intros J i Hi. unfold surf, elements. cbn [m_tris magnet_mesh length seq combine]. rewrite !suml_cons. unfold suml. cbn [fold_right fst snd]. rewrite T1, T2, (Rabs_right 4) by lra.
  unfold on_corner, count, corners, t0, t1, t2. destruct i as [|[|[|[|i]]]]; try lia; cbn; field.
Qed.
Lemma block_K : forall u v, u <> 0 -> v <> 0 -> Km magnet_mesh [u; v] 0 0 = / u / 2 + / v / 2.
Proof.
  intros u v Hu Hv. unfold Km, Kc, elements. cbn [m_tris by_tri magnet_mesh length seq combine]. rewrite !suml_cons. unfold suml. cbn [fold_right fst snd m_depth by_tri].
  assert (T1 : tri_turn (by_tri magnet_mesh [u; v]) (0, 1, 2)%nat = 4) by (unfold tri_turn, turn, pos, t0, t1, t2; cbn [fst snd m_points by_tri magnet_mesh block nth]; rewrite !px_P, !py_P; ring).
  assert (T2 : tri_turn (by_tri magnet_mesh [u; v]) (0, 2, 3)%nat = 4) by (unfold tri_turn, turn, pos, t0, t1, t2; cbn [fst snd m_points by_tri magnet_mesh block nth]; rewrite !px_P, !py_P; ring).
  unfold kloc, hatx, haty. rewrite T1, T2. unfold t0, t1, t2, pos. cbn [fst snd m_points by_tri magnet_mesh block nth Nat.eqb]. rewrite ?px_P, ?py_P, ?(Rabs_right 4) by lra. field. auto.
Qed.
(** the magnet (1, 0) loads the node at the origin with -8 *)
Lemma block_clear : clear_cut (fun p : pt => p) magnet_mesh.
Proof.
  intros r p [<-|[]] E. cbn in E. injection E as <-. right. unfold near, org. rewrite dist_row. unfold Rabs, tol9. destruct (Rcase_abs (1 - 0)); lra.
Qed.
Lemma block_mload : mload magnet_mesh ues (fun p => p) 0 = -8.
Proof.
  destruct block_rim as [a [b [c [Ri _]]]]. destruct (block_laid a b c Ri) as [Rd [Us [Dr [Ol [Np _]]]]].
  destruct (ms_all pt magnet_mesh _ (fun _ => 0) (fun p => p) ues Rd ltac:(cbn; lia) Dr Ol Np block_clear) as [S [E V]].
  destruct (C50_refuted ues (Permutation_refl _)) as [S0 [S' [E0 [E' V']]]]. rewrite E in E'. injection E' as <-. specialize (V [] 0%nat ltac:(cbn; lia)). rewrite (V' []) in V.
  destruct (ms_surface_ok magnet_mesh _ (fun _ => 0) Rd) as [S1 [E1 [_ [_ [_ [_ [_ HV]]]]]]]. rewrite E0 in E1. injection E1 as <-. pose proof (proj2 (HV []) 0%nat ltac:(cbn; lia)) as V0.
  match type of V0 with _ = ?r => change r with (surf (fun _ => 0) magnet_mesh [P 1 0; P 1 0] 0) in V0 end. rewrite V0 in V. lra.
Qed.
Lemma block_potential : forall J M u v w, u <> 0 -> v <> 0 -> clear_cut M magnet_mesh -> (/ u / 2 + / v / 2) * w = 4 * (J (P 1 0) / 3) + mload magnet_mesh ues M 0 ->
  potential J M magnet_mesh ues [u; v] (fun i => if Nat.eqb i 0 then w else 0).
Proof.
  intros J M u v w Hu Hv CC E. destruct block_rim as [a [b [c [Ri Rc]]]]. 
  assert (Pm : permeabilities magnet_mesh [u; v]) by (split; [reflexivity|intros r [<-|[<-|[]]]; auto]).
  apply (laid_iff pt J M magnet_mesh _ ues _ a b c _ (block_laid a b c Ri) Pm CC).
  assert (Z : forall i, In i [a; b; c] -> (if Nat.eqb i 0 then w else 0) = 0). { intros i I. apply Rc in I. destruct I as [<-|[<-|[<-|[]]]]; reflexivity. }
  split; [apply Z; cbn; auto|]. split; [apply Z; cbn; auto|]. split; [apply Z; cbn; auto|]. intros i Hi N1 N2 N3. assert (NI : ~ In i [1; 2; 3]%nat) by (intros I; apply Rc in I; cbn in I; intuition).
  cbn in Hi. assert (i = 0)%nat as -> by (cbn in NI; lia). unfold act. change (length (m_points magnet_mesh)) with 4%nat. cbn [sumn Nat.eqb]. rewrite block_K, block_surf by (auto; lia). cbn [nth]. lra.
Qed.
(** a square with a magnet and a current, of two permeabilities *)
Example C91_met : exists a b c, laid_out magnet_mesh [P 1 0; P 1 0] ues a b c /\ permeabilities magnet_mesh [1; 2] /\ clear_cut (fun p => p) magnet_mesh /\ clear_cut (fun _ => org) magnet_mesh /\
  clear_cut (fun p => mix 2 3 p org) magnet_mesh /\ potential (fun _ => 0) (fun p => p) magnet_mesh ues [1; 2] (fun i => if Nat.eqb i 0 then - (32 / 3) else 0) /\
  potential (fun _ => 9) (fun _ => org) magnet_mesh ues [1; 2] (fun i => if Nat.eqb i 0 then 16 else 0) /\ no_magnets (fun _ => org) magnet_mesh /\ similarity 3 (fun p => P (- (3) * py p) (3 * px p)).
Proof.
  destruct block_rim as [a [b [c [Ri _]]]]. exists a, b, c. split; [apply block_laid; auto|]. split; [split; [reflexivity|intros r [<-|[<-|[]]]; lra]|]. split; [exact block_clear|].
  assert (NM : no_magnets (fun _ : pt => org) magnet_mesh) by (intros r [<-|[]]; exists (P 1 0); auto). split; [apply no_magnets_clear; auto|]. split.
  { intros r p [<-|[]] E. cbn in E. injection E as <-. right. unfold mix, near, org. rewrite !px_P, !py_P. replace (2 * 0 + 3 * 0) with 0 by ring. rewrite dist_row. unfold Rabs, tol9. destruct (Rcase_abs _); lra. }
  split; [apply block_potential; try lra; [exact block_clear|rewrite block_mload; lra]|]. split; [apply block_potential; try lra; [apply no_magnets_clear; auto|rewrite mload_none by auto; lra]|]. split; [exact NM|].
  split; [lra|]. intros p q. unfold dist. rewrite !px_P, !py_P. rewrite <- (sqrt_square 3) at 9 by lra. rewrite <- sqrt_mult; [f_equal; ring|lra|].
  pose proof (sq_nonneg (px p - px q)). pose proof (sq_nonneg (py p - py q)). lra.
Qed.
(** a magnetisation below 1e-9 is dropped: scaling a magnet down that far does not scale its potential *)
Lemma tiny_dropped : forall A (J : A -> R) (M : A -> pt) m es, (forall r, In r (regions (m_drawing m)) -> exists p, nth_error (region_map (m_drawing m)) (snd r) = Some p /\ near (M p) org) ->
  ms_getFemSystem ROps A J M m es = ms_getFemSystem ROps A J (fun _ => org) m es.
Proof.
  intros A J M m es H.
  assert (D : forall (N : A -> pt) rs mp, (forall r, In r rs -> exists p, nth_error (region_map (m_drawing m)) (snd r) = Some p /\ near (N p) org) -> mag_polygons ROps A N (region_map (m_drawing m)) (polygons (m_drawing m)) rs mp = Ok mp).
  { intros N. induction rs as [|r rs IH]; intros mp Hr; cbn [mag_polygons]; auto. destruct (Hr r (or_introl eq_refl)) as [p [E1 E2]]. rewrite (get_some _ _ _ _ E1). cbn [bind].
    destruct (neq_zero (N p)) as [b [Eb Hb]]. rewrite Eb. cbn [bind]. destruct b; [exfalso; apply (proj1 Hb eq_refl); exact E2|]. apply IH. intros; apply Hr; right; auto. }
  unfold ms_getFemSystem. rewrite (D M), (D (fun _ => org)); auto. intros r I. destruct (H r I) as [p [E _]]. exists p. split; auto. apply near_self.
Qed.
Theorem C91_refuted : exists (m : mesh ROps pt) ps es a b c mu x k, laid_out m ps es a b c /\ permeable m mu /\ pins m [a; b; c] /\ 0 < k /\
  potential (fun _ => 0) (fun p => p) m es mu x /\ ~ potential (fun _ => 0) (fun p => mix k 0 p p) m es mu (fun v => k * x v).
Proof.
  destruct block_rim as [a [b [c [Ri Rc]]]].
  exists magnet_mesh, [P 1 0; P 1 0], ues, a, b, c, [1; 1], (fun i => if Nat.eqb i 0 then -8 else 0), (tol9 / 2). split; [apply block_laid; auto|]. split; [split; [reflexivity|intros r [<-|[<-|[]]]; lra]|].
  assert (TP : 0 < tol9 < 1) by (unfold tol9; lra). split.
  { intros v Hv. exists 2%nat. split; [apply Rc; cbn; auto|]. cbn in Hv. destruct (Nat.eq_dec v 3) as [->|N].
    - apply (linked_step magnet_mesh 2 2 3 (0, 2, 3)%nat); unfold corners, t0, t1, t2; cbn; auto. constructor.
    - apply (linked_step magnet_mesh 2 2 v (0, 1, 2)%nat); unfold corners, t0, t1, t2; cbn; auto; [constructor|]. lia. }
  split; [lra|]. split; [apply block_potential; try lra; [exact block_clear|rewrite block_mload; lra]|]. intros [S [S' [E1 [E2 E3]]]].
  rewrite tiny_dropped in E1.
  - assert (NM : no_magnets (fun _ : pt => org) magnet_mesh) by (intros r [<-|[]]; exists (P 1 0); auto).
    assert (Pm : permeabilities magnet_mesh [1; 1]) by (split; [reflexivity|intros r [<-|[<-|[]]]; lra]).
    assert (PO : potential (fun _ => 0) (fun _ => org) magnet_mesh ues [1; 1] (fun v => tol9 / 2 * (if Nat.eqb v 0 then -8 else 0))) by (exists S, S'; auto).
    apply (currents_iff magnet_mesh _ ues a b c (fun _ => org) (block_laid a b c Ri) NM (fun _ => 0) [1; 1] _ Pm) in PO. destruct PO as [_ [_ [_ PO]]].
    assert (N0 : ~ In 0%nat [a; b; c]) by (intros I; apply Rc in I; cbn in I; intuition discriminate). cbn in N0. specialize (PO 0%nat ltac:(cbn; lia) ltac:(intuition) ltac:(intuition) ltac:(intuition)).
    unfold act in PO. change (length (m_points magnet_mesh)) with 4%nat in PO. cbn [sumn Nat.eqb] in PO. rewrite block_K, block_surf in PO by (try lra; lia). cbn [nth] in PO. lra.
  - intros r [<-|[]]. exists (P 1 0). split; auto. unfold mix, near, org. rewrite !px_P, !py_P. replace (tol9 / 2 * 0 + 0 * 0) with 0 by ring. rewrite dist_row. rewrite Rabs_right by lra. lra.
Qed.
Print Assumptions C91_refuted.
(** three triangles, the first with an obtuse angle at node 2; nodes 2, 3, 4 are the outermost *)
Definition obm : mesh ROps nat := @mkMesh ROps nat org 0 0 1 [P 2 1; P 2 (-1); P (5 / 2) 0; P 3 1; P 3 2] [] [(0, 1, 2); (0, 2, 3); (0, 3, 4)]%nat [0; 1; 2]%nat (mkD [0; 1; 2]%nat [] [] [] []).
Definition only (k p : nat) : R := if Nat.eqb p k then 1 else 0.
Lemma obm_turns : tri_turn obm (0, 1, 2)%nat = 1 /\ tri_turn obm (0, 2, 3)%nat = 1 /\ tri_turn obm (0, 3, 4)%nat = 1.
Proof. repeat split; unfold tri_turn, turn, pos, t0, t1, t2; cbn [fst snd m_points obm nth]; rewrite !px_P, !py_P; field. Qed.
Lemma obm_proper : proper obm.
Proof. destruct obm_turns as [T1 [T2 T3]]. unfold proper. cbn [m_tris obm]. repeat constructor; rewrite ?T1, ?T2, ?T3; lra. Qed.
Lemma obm_rim : exists a b c, rim obm a b c /\ forall i, In i [a; b; c] <-> In i [2; 3; 4]%nat.
Proof.
  apply rim_of; auto.
  - repeat constructor; cbn; intuition discriminate.
  - intros j I. split; [cbn; destruct I as [<-|[<-|[<-|[]]]]; lia|]. destruct I as [<-|[<-|[<-|[]]]]; unfold pos; cbn [m_points obm nth]; rewrite dist_org; apply sqrt_lt_R0; lra.
  - intros i j Hi NI Ij. cbn in Hi, NI. assert (i = 0 \/ i = 1)%nat as [->| ->] by lia; destruct Ij as [<-|[<-|[<-|[]]]]; unfold pos; cbn [m_points obm nth]; rewrite !dist_org; apply sqrt_lt_1; lra.
Qed.
Lemma obm_laid : forall a b c, rim obm a b c -> laid_out obm [0; 1; 2]%nat (unique_edges (m_tris obm)) a b c.
Proof.
  intros a b c Ri. split; [split; [split; [repeat constructor; cbn; lia|split; [reflexivity|unfold is_u32; cbn; lia]]|split; [repeat constructor|split; [intros v; apply deg_small; cbn; lia|exact obm_proper]]]|].
  split; [intros v Hv; cbn in Hv; destruct v as [|[|[|[|[|v]]]]]; [vm_compute; lia..|lia]|]. split; [constructor|]. split; [intros g []|]. split; [|exact Ri]. cbn. repeat constructor.
Qed.
Lemma obm_pins : forall a b c, (forall i, In i [a; b; c] <-> In i [2; 3; 4]%nat) -> pins obm [a; b; c].
Proof.
  intros a b c Rc v Hv. exists (if Nat.leb v 2 then 2 else v)%nat. cbn in Hv. destruct v as [|[|[|[|[|v]]]]]; try lia; cbn [Nat.leb]; (split; [apply Rc; cbn; auto|]); try constructor;
    (eapply (linked_step obm 2 2 _ (0, 1, 2)%nat); unfold corners, t0, t1, t2; cbn; auto; constructor).
Qed.
Lemma obm_none : no_magnets (fun _ : nat => org) obm.
Proof. intros r []. Qed.
Lemma obm_K : forall a b, Km obm [1; 1; 1] a b = kloc obm (0, 1, 2)%nat a b + kloc obm (0, 2, 3)%nat a b + kloc obm (0, 3, 4)%nat a b.
Proof.
  intros. unfold Km, Kc, elements. cbn [m_tris by_tri obm length seq combine]. rewrite !suml_cons. unfold suml. cbn [fold_right fst snd m_depth by_tri].
  change (kloc (by_tri obm [1; 1; 1])) with (kloc obm). field.
Qed.
Lemma obm_surf : forall k i, (i < 2)%nat -> surf (only k) obm [0; 1; 2]%nat i = (if Nat.eqb i 0 then only k 0 + only k 1 + only k 2 else only k 0) / 6.
Proof.
  intros k i Hi. destruct obm_turns as [T1 [T2 T3]]. unfold surf, elements. cbn [m_tris obm length seq combine]. rewrite !suml_cons. unfold suml. cbn [fold_right fst snd]. rewrite T1, T2, T3, (Rabs_right 1) by lra.
  unfold on_corner, count, corners, t0, t1, t2. destruct i as [|[|i]]; try lia; cbn [Nat.eqb filter length Nat.ltb Nat.leb fst snd count_occ]; cbn; field.
Qed.
Lemma obm_potential : forall k u v, 7 / 4 * u + 3 / 8 * v = (only k 0 + only k 1 + only k 2) / 6 -> 3 / 8 * u + 5 / 8 * v = only k 0 / 6 ->
  potential (only k) (fun _ => org) obm (unique_edges (m_tris obm)) [1; 1; 1] (fun i => nth i [u; v] 0).
Proof.
  intros k u v E1 E2. destruct obm_rim as [a [b [c [Ri Rc]]]].
  assert (Pm : permeabilities obm [1; 1; 1]) by (split; [reflexivity|intros r [<-|[<-|[<-|[]]]]; lra]).
  apply (currents_iff obm _ _ a b c (fun _ => org) (obm_laid a b c Ri) obm_none (only k) _ _ Pm).
  assert (Z : forall i, In i [a; b; c] -> nth i [u; v] 0 = 0) by (intros i I; apply Rc in I; destruct I as [<-|[<-|[<-|[]]]]; reflexivity).
  split; [apply Z; cbn; auto|]. split; [apply Z; cbn; auto|]. split; [apply Z; cbn; auto|]. intros i Hi N1 N2 N3. assert (NI : ~ In i [2; 3; 4]%nat) by (intros I; apply Rc in I; cbn in I; intuition).
  cbn in Hi, NI. assert (I2 : (i < 2)%nat) by lia. rewrite obm_surf by auto. unfold act. change (length (m_points obm)) with 5%nat. cbn [sumn nth]. rewrite !obm_K.
  destruct obm_turns as [T1 [T2 T3]]. unfold kloc, hatx, haty. rewrite T1, T2, T3. unfold t0, t1, t2, pos.
  destruct i as [|[|i]]; try lia; cbn [fst snd m_points obm nth Nat.eqb]; rewrite ?px_P, ?py_P, ?(Rabs_right 1) by lra; [rewrite <- E1|rewrite <- E2]; field.
Qed.
Lemma obm_first : potential (only 1) (fun _ => org) obm (unique_edges (m_tris obm)) [1; 1; 1] (fun i => nth i [20 / 183; - (4 / 61)] 0).
Proof. apply obm_potential; unfold only; cbn [Nat.eqb]; field. Qed.
Lemma obm_second : potential (only 0) (fun _ => org) obm (unique_edges (m_tris obm)) [1; 1; 1] (fun i => nth i [8 / 183; 44 / 183] 0).
Proof. apply obm_potential; unfold only; cbn [Nat.eqb]; field. Qed.
Lemma obm_permeable : permeable obm [1; 1; 1] /\ permeable obm [2; 2; 2].
Proof. split; (split; [reflexivity|intros r [<-|[<-|[<-|[]]]]; lra]). Qed.
(** two circuits, one triangle each: either sends the flux 4/549 through the other *)
Example C92_met : exists a b c, laid_out obm [0; 1; 2]%nat (unique_edges (m_tris obm)) a b c /\ permeabilities obm [1; 1; 1] /\ no_magnets (fun _ : nat => org) obm /\
  potential (only 1) (fun _ => org) obm (unique_edges (m_tris obm)) [1; 1; 1] (fun i => nth i [20 / 183; - (4 / 61)] 0) /\
  potential (only 0) (fun _ => org) obm (unique_edges (m_tris obm)) [1; 1; 1] (fun i => nth i [8 / 183; 44 / 183] 0) /\
  linkage (only 0) obm [0; 1; 2]%nat (fun i => nth i [20 / 183; - (4 / 61)] 0) = 4 / 549 /\ stores obm [1; 1; 1] (fun i => nth i [20 / 183; - (4 / 61)] 0) (10 / 549).
Proof.
  destruct obm_rim as [a [b [c [Ri Rc]]]]. exists a, b, c. assert (Lo := obm_laid a b c Ri). split; [exact Lo|]. assert (Pm := permeable_permeabilities _ _ _ (proj1 obm_permeable)). split; [exact Pm|]. split; [exact obm_none|].
  split; [exact obm_first|]. split; [exact obm_second|].
  assert (LK : forall k u v, linkage (only k) obm [0; 1; 2]%nat (fun i => nth i [u; v] 0) = (only k 0 * (u + v) + only k 1 * u + only k 2 * u) / 6).
  { intros k u v. destruct obm_turns as [T1 [T2 T3]]. unfold linkage, sum_tris. cbn [m_tris obm combine]. rewrite !suml_cons. unfold suml. cbn [fold_right fst snd]. unfold tri_area. rewrite T1, T2, T3, (Rabs_right 1) by lra.
    unfold t0, t1, t2. cbn [fst snd nth]. field. }
  split; [rewrite LK; unfold only; cbn [Nat.eqb]; field|].
  apply (stores_quad nat obm [0; 1; 2]%nat); [apply Lo|apply Lo|reflexivity|].
  rewrite (energy_linkage obm _ _ a b c (fun _ => org) Lo obm_none (only 1) _ _ Pm obm_first). rewrite LK. unfold only; cbn [Nat.eqb]. field.
Qed.
(** doubled permeabilities *)
Example C93_met : exists a b c, rim obm a b c /\ pins obm [a; b; c] /\ permeable obm [1; 1; 1] /\ permeable obm [2; 2; 2] /\ Forall2 Rle [1; 1; 1] [2; 2; 2] /\
  potential (only 1) (fun _ => org) obm (unique_edges (m_tris obm)) (map (Rmult 2) [1; 1; 1]) (fun i => 2 * nth i [20 / 183; - (4 / 61)] 0).
Proof.
  destruct obm_rim as [a [b [c [Ri Rc]]]]. exists a, b, c. assert (Lo := obm_laid a b c Ri). assert (Pm := permeable_permeabilities _ _ _ (proj1 obm_permeable)).
  split; [exact Ri|]. split; [apply obm_pins; auto|]. split; [apply obm_permeable|]. split; [apply obm_permeable|]. split; [repeat constructor; lra|].
  apply (C91_permeability nat (only 1) (fun _ => org) obm _ _ a b c [1; 1; 1] _ 2 Lo Pm (no_magnets_clear _ _ _ obm_none)); [lra|]. exact obm_first.
Qed.
(** a square of right-angled triangles with a current throughout *)
Example C94_met : exists a b c, laid_out magnet_mesh [P 1 0; P 1 0] ues a b c /\ permeable magnet_mesh [1; 2] /\ never_obtuse magnet_mesh /\ pins magnet_mesh [a; b; c] /\ no_magnets (fun _ => org) magnet_mesh /\
  potential (fun _ => 9) (fun _ => org) magnet_mesh ues [1; 2] (fun i => if Nat.eqb i 0 then 16 else 0).
Proof.
  destruct block_rim as [a [b [c [Ri Rc]]]]. exists a, b, c. assert (NM : no_magnets (fun _ : pt => org) magnet_mesh) by (intros r [<-|[]]; exists (P 1 0); auto).
  split; [apply block_laid; auto|]. split; [split; [reflexivity|intros r [<-|[<-|[]]]; lra]|]. split; [|split; [|split; [exact NM|apply block_potential; try lra; [apply no_magnets_clear; auto|rewrite mload_none by auto; lra]]]].
  - intros t u v w It Iu Iv Iw N1 N2. cbn in It. unfold corners, t0, t1, t2 in *. cbn [In] in Iu, Iv, Iw.
    destruct It as [<-|[<-|[]]]; cbn [fst snd] in *; destruct Iu as [<-|[<-|[<-|[]]]], Iv as [<-|[<-|[<-|[]]]], Iw as [<-|[<-|[<-|[]]]]; try congruence;
      unfold pos; cbn [m_points magnet_mesh block nth]; rewrite !px_P, !py_P; lra.
  - intros v Hv. exists 2%nat. split; [apply Rc; cbn; auto|]. cbn in Hv. destruct (Nat.eq_dec v 3) as [->|N].
    + apply (linked_step magnet_mesh 2 2 3 (0, 2, 3)%nat); unfold corners, t0, t1, t2; cbn; auto. constructor.
    + apply (linked_step magnet_mesh 2 2 v (0, 1, 2)%nat); unfold corners, t0, t1, t2; cbn; auto; [constructor|]. lia.
Qed.
(** C94 fails on a conforming mesh with an obtuse angle: a forward current, and a negative potential at a node *)
Theorem C94_refuted : exists (m : mesh ROps nat) ps es a b c mu (J : nat -> R) x, conforming m /\ laid_out m ps es a b c /\ permeable m mu /\ pins m [a; b; c] /\ no_magnets (fun _ => org) m /\
  (forall s, In s ps -> 0 <= J s) /\ potential J (fun _ => org) m es mu x /\ exists i, (i < length (m_points m))%nat /\ x i < 0.
Proof.
  destruct obm_rim as [a [b [c [Ri Rc]]]]. exists obm, [0; 1; 2]%nat, (unique_edges (m_tris obm)), a, b, c, [1; 1; 1], (only 1), (fun i => nth i [20 / 183; - (4 / 61)] 0).
  split; [|split; [apply obm_laid; auto|split; [apply obm_permeable|split; [apply obm_pins; auto|split; [exact obm_none|split; [intros s _; unfold only; destruct (Nat.eqb s 1); lra|split; [exact obm_first|]]]]]]].
  - split; [repeat constructor; cbn; lia|]. split; [exact obm_proper|]. split.
    + intros i j t t' p Hi Hj N O1 O2. cbn [m_tris obm] in Hi, Hj.
      destruct O1 as [u [v [w [Hu [Hv [Hw [S1 [X1 Y1]]]]]]]]. destruct O2 as [u' [v' [w' [Hu' [Hv' [Hw' [S2 [X2 Y2]]]]]]]].
      destruct i as [|[|[|i]]]; cbn in Hi; [| | |destruct i; discriminate]; injection Hi as <-;
      (destruct j as [|[|[|j]]]; cbn in Hj; [| | |destruct j; discriminate]; injection Hj as <-; try congruence);
      unfold t0, t1, t2, pos in *; cbn [fst snd m_points obm nth] in *; rewrite !px_P in X1, X2; rewrite !py_P in Y1, Y2; lra.
    + intros t v It Hv [a' [b' [c' [Ha [Hb [Hc [S1 [X1 Y1]]]]]]]]. cbn in Hv. cbn [m_tris obm In] in It. unfold corners, t0, t1, t2, pos in *.
      destruct It as [<-|[<-|[<-|[]]]]; destruct v as [|[|[|[|[|v]]]]]; try lia; cbn [fst snd m_points obm nth In] in *; auto; rewrite !px_P in X1; rewrite !py_P in Y1; exfalso; lra.
  - exists 1%nat. split; [cbn; lia|]. cbn [nth]. lra.
Qed.
Print Assumptions C94_refuted.
