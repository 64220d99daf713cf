(** Points on a dyadic grid: the geometric predicates round nothing. *)
From Coq Require Import List Arith ZArith NArith Bool Lia Reals Lra Psatz.
From Coq Require Import Floats.SpecFloat.
From Verif Require Import Base GeometryModel GeometrySpec FloatSpec Float_proofs FloatBound_proofs FloatUse_proofs RoundSpec Round_proofs RoundUse_proofs.
Import ListNotations.
Local Open Scope R_scope.
Local Notation fvec := (vec FOps).

Definition dy (k : Z) (x : f64) (n : Z) : Prop := double x /\ value x = IZR n * powerRZ 2 k.
Lemma dy_sub : forall k x y i j, (-1074 <= k <= 900)%Z -> dy k x i -> dy k y j -> (Z.abs (i - j) < 2 ^ 53)%Z -> dy k (SFsub 53 1024 x y) (i - j).
Proof.
  intros k x y i j K [DX VX] [DY VY] B. assert (E : value x - value y = IZR (i - j) * powerRZ 2 k) by (rewrite VX, VY, minus_IZR; ring).
  destruct (sub_exact x y _ _ DX DY E B K) as [D V]. split; auto. rewrite V. auto.
Qed.
Lemma dy_mul : forall k l x y i j, (-1074 <= k + l <= 900)%Z -> dy k x i -> dy l y j -> (Z.abs (i * j) < 2 ^ 53)%Z -> dy (k + l) (SFmul 53 1024 x y) (i * j).
Proof.
  intros k l x y i j K [DX VX] [DY VY] B. assert (E : value x * value y = IZR (i * j) * powerRZ 2 (k + l)) by (rewrite VX, VY, mult_IZR, powerRZ_add by lra; ring).
  destruct (mul_exact x y _ _ DX DY E B K) as [D V]. split; auto. rewrite V. auto.
Qed.
Lemma prod_bound : forall i j a b, (Z.abs i < a -> Z.abs j < b -> Z.abs (i * j) < a * b)%Z.
Proof. intros. rewrite Z.abs_mul. pose proof (Z.abs_nonneg i). pose proof (Z.abs_nonneg j). nia. Qed.
(** a difference of two products of differences *)
Lemma cross_dy : forall k a1 a2 b1 b2 c1 c2 d1 d2 i1 i2 j1 j2 m1 m2 n1 n2, (-530 <= k <= 400)%Z ->
  dy k a1 i1 -> dy k a2 i2 -> dy k b1 j1 -> dy k b2 j2 -> dy k c1 m1 -> dy k c2 m2 -> dy k d1 n1 -> dy k d2 n2 ->
  Forall (fun z => Z.abs z < 2 ^ 25)%Z [i1; i2; j1; j2; m1; m2; n1; n2] ->
  let v := SFsub 53 1024 (SFmul 53 1024 (SFsub 53 1024 a1 a2) (SFsub 53 1024 b1 b2)) (SFmul 53 1024 (SFsub 53 1024 c1 c2) (SFsub 53 1024 d1 d2)) in
  double v /\ value v = (value a1 - value a2) * (value b1 - value b2) - (value c1 - value c2) * (value d1 - value d2).
Proof.
  intros k a1 a2 b1 b2 c1 c2 d1 d2 i1 i2 j1 j2 m1 m2 n1 n2 K HA1 HA2 HB1 HB2 HC1 HC2 HD1 HD2 B v.
  rewrite !Forall_cons_iff in B. destruct B as [B1 [B2 [B3 [B4 [B5 [B6 [B7 [B8 _]]]]]]]].
  assert (S : forall x y, (Z.abs x < 2 ^ 25 -> Z.abs y < 2 ^ 25 -> Z.abs (x - y) < 2 ^ 26)%Z) by (intros; change (2 ^ 26)%Z with (2 ^ 25 + 2 ^ 25)%Z; lia).
  assert (S' : forall x, (Z.abs x < 2 ^ 26 -> Z.abs x < 2 ^ 53)%Z) by (intros; assert ((2 ^ 26 < 2 ^ 53)%Z) by reflexivity; lia).
  assert (K1 : (-1074 <= k <= 900)%Z) by lia. assert (K2 : (-1074 <= k + k <= 900)%Z) by lia.
  pose proof (S i1 i2 B1 B2) as I1. pose proof (S j1 j2 B3 B4) as I2. pose proof (S m1 m2 B5 B6) as I3. pose proof (S n1 n2 B7 B8) as I4.
  pose proof (dy_sub k _ _ _ _ K1 HA1 HA2 (S' _ I1)) as D1. pose proof (dy_sub k _ _ _ _ K1 HB1 HB2 (S' _ I2)) as D2.
  pose proof (dy_sub k _ _ _ _ K1 HC1 HC2 (S' _ I3)) as D3. pose proof (dy_sub k _ _ _ _ K1 HD1 HD2 (S' _ I4)) as D4.
  pose proof (prod_bound _ _ _ _ I1 I2) as P1. pose proof (prod_bound _ _ _ _ I3 I4) as P2. change (2 ^ 26 * 2 ^ 26)%Z with (2 ^ 52)%Z in P1, P2.
  assert (L : (2 ^ 53 = 2 ^ 52 + 2 ^ 52)%Z) by reflexivity.
  assert (PP : forall z, (Z.abs z < 2 ^ 52 -> Z.abs z < 2 ^ 53)%Z) by (intros; lia).
  pose proof (dy_mul k k _ _ _ _ K2 D1 D2 (PP _ P1)) as M1. pose proof (dy_mul k k _ _ _ _ K2 D3 D4 (PP _ P2)) as M2.
  assert (Q : (Z.abs ((i1 - i2) * (j1 - j2) - (m1 - m2) * (n1 - n2)) < 2 ^ 53)%Z) by lia.
  destruct (dy_sub (k + k) _ _ _ _ K2 M1 M2 Q) as [DV V]. split; [exact DV|]. fold v in V. rewrite V.
  destruct HA1 as [_ ->], HA2 as [_ ->], HB1 as [_ ->], HB2 as [_ ->], HC1 as [_ ->], HC2 as [_ ->], HD1 as [_ ->], HD2 as [_ ->].
  rewrite minus_IZR, !mult_IZR, !minus_IZR, powerRZ_add by lra. ring.
Qed.
Ltac grid H i j HI HJ DX DY := let P := fresh in let VX := fresh in let VY := fresh in let E1 := fresh in let E2 := fresh in
  destruct H as [[E1 E2] [i [j [HI [HJ [VX VY]]]]]]; pose proof (conj E1 VX) as DX; pose proof (conj E2 VY) as DY.
Lemma orient_grid : forall k (p1 p2 p3 : fvec), (-530 <= k <= 400)%Z -> Forall (fun p => double_point p /\ on_dyadic k p) [p1; p2; p3] ->
  geomOrientation FOps p1 p2 p3 = geomOrientation ROps (place p1) (place p2) (place p3).
Proof.
  intros k p1 p2 p3 K H. rewrite !Forall_cons_iff in H. destruct H as [H1 [H2 [H3 _]]].
  grid H1 i1 j1 I1 J1 X1 Y1. grid H2 i2 j2 I2 J2 X2 Y2. grid H3 i3 j3 I3 J3 X3 Y3.
  destruct (cross_dy k _ _ _ _ _ _ _ _ _ _ _ _ _ _ _ _ K Y2 Y1 X3 X2 X2 X1 Y3 Y2) as [D V]; [repeat constructor; auto|].
  unfold geomOrientation, gtb. cbn [ltb fabs sub mul zero FOps ROps place vx vy]. change f64_prec with 53%Z. change f64_emax with 1024%Z.
  set (v := SFsub 53 1024 _ _) in *. assert (DZ : double (S754_zero false)) by (split; [exact I|reflexivity]).
  change (dbl_eps ROps) with eps52.
  rewrite (ltb_same _ _ (abs_double _ D) dbl_eps_double), (ltb_same _ _ DZ D), abs_value, dbl_eps_value, V. reflexivity.
Qed.
Lemma triangle_grid : forall k (p a b c : fvec), (-530 <= k <= 400)%Z -> Forall (fun p => double_point p /\ on_dyadic k p) [p; a; b; c] ->
  pointInTriangle FOps p a b c = pointInTriangle ROps (place p) (place a) (place b) (place c).
Proof.
  intros k p a b c K H. rewrite !Forall_cons_iff in H. destruct H as [H1 [H2 [H3 [H4 _]]]]. unfold pointInTriangle.
  rewrite (orient_grid k p a b), (orient_grid k p b c), (orient_grid k p c a); auto.
Qed.
Lemma edge_grid : forall k (p A B : fvec), (-530 <= k <= 400)%Z -> Forall (fun p => double_point p /\ on_dyadic k p) [p; A; B] ->
  edge_step FOps p A B = edge_step ROps (place p) (place A) (place B).
Proof.
  intros k p A B K H. rewrite !Forall_cons_iff in H. destruct H as [H1 [H2 [H3 _]]].
  grid H1 i1 j1 I1 J1 X1 Y1. grid H2 i2 j2 I2 J2 X2 Y2. grid H3 i3 j3 I3 J3 X3 Y3.
  destruct (cross_dy k _ _ _ _ _ _ _ _ _ _ _ _ _ _ _ _ K X2 X1 Y3 Y1 X3 X1 Y2 Y1) as [D V]; [repeat constructor; auto|].
  destruct X1 as [X1 _], X2 as [X2 _], X3 as [X3 _], Y1 as [Y1 _], Y2 as [Y2 _], Y3 as [Y3 _].
  unfold edge_step, leb, geb, gtb. cbn [eqb ltb sub mul zero FOps ROps place vx vy]. change f64_prec with 53%Z. change f64_emax with 1024%Z. cbv zeta.
  set (v := SFsub 53 1024 _ _) in *. assert (DZ : double (S754_zero false)) by (split; [exact I|reflexivity]).
  rewrite !eqb_same, !ltb_same by auto. change (value (S754_zero false)) with 0. rewrite V. reflexivity.
Qed.
Lemma contains_grid : forall k (l : list fvec) (p : fvec), (-530 <= k <= 400)%Z -> Forall (fun p => double_point p /\ on_dyadic k p) (p :: l) ->
  poly_contains FOps l p = poly_contains ROps (map place l) (place p).
Proof.
  intros k l p K H. rewrite Forall_cons_iff, Forall_forall in H. destruct H as [HP HL]. apply contains_edges. intros a b _ Ia Ib.
  apply (edge_grid k); auto.
Qed.
