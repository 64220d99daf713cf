(** C113: the mesh generator's orientation test with all its stages. *)
From Coq Require Import String.
From Coq Require Import List Arith ZArith NArith Bool Lia Reals Lra.
From Coq Require Import Floats.SpecFloat.
From Verif Require Import Base GeometryModel GeometrySpec FloatSpec Float_proofs FloatBound_proofs RoundSpec Round_proofs RoundUse_proofs PredicateModel PredicateSpec Predicate_proofs Props_Predicate ExpansionModel ExpansionSpec Expansion_proofs ExpansionR_proofs StageB_proofs Props_Expansion.
Import ListNotations.
Local Open Scope R_scope.
Local Notation fvec := (vec FOps).

(** every number the test returns is finite and has the sign of the exact determinant of the points *)
Theorem C113_sign : forall fuel K (pa pb pc : fvec) det, exactinit FOps fuel fhalf = Some K -> in_range 400 440 pa -> in_range 400 440 pb -> in_range 400 440 pc ->
  orientation FOps K false pa pb pc = Ok det -> double det /\ same_sign (value det) (turn (place pa) (place pb) (place pc)).
Proof.
  intros fuel K pa pb pc det E RA RB RC. unfold orientation. destruct (counterclockwise FOps K false pa pb pc) as [d|s] eqn:C.
  - intros H. injection H as <-. apply (ccw_sign fuel K); auto using wider.
  - intros H. apply (adapt_sign fuel K pa pb pc s det); auto.
Qed.
Print Assumptions C113_sign.
(** in particular it is zero for points in line, and only for those *)
Theorem C113_in_line : forall fuel K (pa pb pc : fvec) det, exactinit FOps fuel fhalf = Some K -> in_range 400 440 pa -> in_range 400 440 pb -> in_range 400 440 pc ->
  orientation FOps K false pa pb pc = Ok det -> (value det = 0 <-> turn (place pa) (place pb) (place pc) = 0).
Proof. intros fuel K pa pb pc det E RA RB RC H. destruct (C113_sign fuel K pa pb pc det E RA RB RC H) as [_ [P N]]. split; intros Z; destruct (Rtotal_order (value det) 0) as [Q|[Q|Q]]; destruct (Rtotal_order (turn (place pa) (place pb) (place pc)) 0) as [W|[W|W]]; lra. Qed.
Print Assumptions C113_in_line.
(** the answers for the three points in another order agree: rotating them keeps the sign, exchanging two of them reverses it *)
Theorem C113_order : forall fuel K (pa pb pc : fvec) det rot swap, exactinit FOps fuel fhalf = Some K -> in_range 400 440 pa -> in_range 400 440 pb -> in_range 400 440 pc ->
  orientation FOps K false pa pb pc = Ok det -> orientation FOps K false pb pc pa = Ok rot -> orientation FOps K false pb pa pc = Ok swap ->
  same_sign (value rot) (value det) /\ same_sign (value swap) (- value det).
Proof.
  intros fuel K pa pb pc det rot swap E RA RB RC H1 H2 H3.
  destruct (C113_sign fuel K pa pb pc det E RA RB RC H1) as [_ [P1 N1]]. destruct (C113_sign fuel K pb pc pa rot E RB RC RA H2) as [_ [P2 N2]]. destruct (C113_sign fuel K pb pa pc swap E RB RA RC H3) as [_ [P3 N3]].
  assert (T2 : turn (place pb) (place pc) (place pa) = turn (place pa) (place pb) (place pc)) by (unfold turn; ring). assert (T3 : turn (place pb) (place pa) (place pc) = - turn (place pa) (place pb) (place pc)) by (unfold turn; ring).
  rewrite T2 in P2, N2. rewrite T3 in P3, N3. set (T := turn (place pa) (place pb) (place pc)) in *. clearbody T. clear - P1 N1 P2 N2 P3 N3. unfold same_sign.
  assert (X : - T > 0 <-> T < 0) by (split; lra). assert (Y : - T < 0 <-> 0 < T) by (split; lra). assert (X' : 0 < - value det <-> value det < 0) by (split; lra). assert (Y' : - value det < 0 <-> 0 < value det) by (split; lra). unfold Rgt in X. tauto.
Qed.
Print Assumptions C113_order.
(** the test returns a number or overruns an array (C111), whatever the points *)
Theorem C113_outcomes : forall o K noexact pa pb pc, is_ok (orientation o K noexact pa pb pc) \/ is_ub (orientation o K noexact pa pb pc).
Proof. intros. unfold orientation. destruct (counterclockwise o K noexact pa pb pc); [left; eexists; reflexivity|apply C111_outcomes]. Qed.
Print Assumptions C113_outcomes.
(** it returns a number if the four differences are doubles *)
Theorem C113_exact_differences : forall fuel K (pa pb pc : fvec), exactinit FOps fuel fhalf = Some K -> in_range 400 440 pa -> in_range 400 440 pb -> in_range 400 440 pc ->
  value (sub FOps (vx pa) (vx pc)) = value (vx pa) - value (vx pc) -> value (sub FOps (vy pa) (vy pc)) = value (vy pa) - value (vy pc) ->
  value (sub FOps (vx pb) (vx pc)) = value (vx pb) - value (vx pc) -> value (sub FOps (vy pb) (vy pc)) = value (vy pb) - value (vy pc) ->
  exists det, orientation FOps K false pa pb pc = Ok det.
Proof.
  intros fuel K pa pb pc E [[Dax Day] [[Bax Bay] _]] [[Dbx Dby] [[Bbx Bby] _]] [[Dcx Dcy] [[Bcx Bcy] _]] V1 V2 V3 V4.
  assert (Z : forall x y, double x -> double y -> below 400 x -> below 400 y -> value (sub FOps x y) = value x - value y -> eqb FOps (two_diff_tail FOps x y (sub FOps x y)) (zero FOps) = true).
  { intros x y DX DY BX BY V. destruct (diff_in 400 x y BX BY ltac:(lia)) as [_ T]. destruct (two_diff_exact x y DX DY (below_finite _ _ T)) as [_ [DT [_ S]]]. unfold two_diff in DT, S. cbn [fst snd] in DT, S.
    apply (zero_tail _ DT). lra. }
  unfold orientation. destruct (counterclockwise FOps K false pa pb pc) as [d|s]; [eexists; reflexivity|].
  unfold counterclockwise_adapt. destruct (two_product _ _ _ _) as [l lt]. destruct (two_product _ _ _ _) as [r rt].
  assert (L : exists x0 x1 x2 x3, two_two_diff FOps l lt r rt = [x0; x1; x2; x3]).
  { unfold two_two_diff. destruct (two_one_diff FOps l lt rt) as [[j z] x0]. destruct (two_one_diff FOps j z r) as [[x3 x2] x1]. eauto. }
  destruct L as [x0 [x1 [x2 [x3 L]]]]. rewrite L. cbn [estimate get nth_error forM_range forM_from Nat.sub bind].
  destruct (_ || _); [eexists; reflexivity|]. rewrite (Z _ _ Dax Dcx Bax Bcx V1), (Z _ _ Day Dcy Bay Bcy V2), (Z _ _ Dbx Dcx Bbx Bcx V3), (Z _ _ Dby Dcy Bby Bcy V4). eexists. reflexivity.
Qed.
Print Assumptions C113_exact_differences.
(** hence for integer coordinates below 2^52 it always returns a number of the right sign *)
Definition whole (x y : Z) : fvec := @mkV FOps (f64_ofZ x) (f64_ofZ y).
Lemma whole_in_range : forall x y, (Z.abs x < 2 ^ 53)%Z -> (Z.abs y < 2 ^ 53)%Z -> in_range 400 440 (whole x y).
Proof.
  intros x y HX HY. assert (R : forall n, (Z.abs n < 2 ^ 53)%Z -> double (f64_ofZ n) /\ below 400 (f64_ofZ n) /\ multiple 440 (f64_ofZ n)).
  { intros n N. destruct (ofZ_exact n N) as [D V]. split; [exact D|]. split.
    - apply value_below; [apply D|]. rewrite V, <- abs_IZR. apply Rlt_trans with (IZR (2 ^ 53)); [apply IZR_lt; exact N|]. change (powerRZ 2 400) with (2 ^ 400). rewrite pow_IZR. apply IZR_lt. reflexivity.
    - exists (n * 2 ^ 440)%Z. rewrite V, mult_IZR, Rmult_assoc. change (IZR (2 ^ 440)) with (IZR (2 ^ Z.of_nat 440)). rewrite <- pow_IZR, pow_powerRZ, <- powerRZ_add by lra. change (Z.of_nat 440 + - (440))%Z with 0%Z. cbn [powerRZ]. ring. }
  destruct (R x HX) as [A [B C]]. destruct (R y HY) as [A' [B' C']]. split; [split; assumption|]. split; split; assumption.
Qed.
Theorem C113_integers : forall fuel K ax ay bx by_ cx cy, exactinit FOps fuel fhalf = Some K -> Forall (fun n => Z.abs n < 2 ^ 52)%Z [ax; ay; bx; by_; cx; cy] ->
  exists det, orientation FOps K false (whole ax ay) (whole bx by_) (whole cx cy) = Ok det /\ double det /\
    let D := ((ax - cx) * (by_ - cy) - (ay - cy) * (bx - cx))%Z in (0 < value det <-> (0 < D)%Z) /\ (value det < 0 <-> (D < 0)%Z).
Proof.
  intros fuel K ax ay bx by_ cx cy E F. pose proof (Forall_inv F) as H1. apply Forall_inv_tail in F. pose proof (Forall_inv F) as H2. apply Forall_inv_tail in F. pose proof (Forall_inv F) as H3. apply Forall_inv_tail in F.
  pose proof (Forall_inv F) as H4. apply Forall_inv_tail in F. pose proof (Forall_inv F) as H5. apply Forall_inv_tail in F. pose proof (Forall_inv F) as H6. clear F. cbv beta in *.
  assert (W : forall n, (Z.abs n < 2 ^ 52 -> Z.abs n < 2 ^ 53)%Z) by (intros n N; apply Z.lt_trans with (1 := N); reflexivity).
  assert (X : forall n m, (Z.abs n < 2 ^ 52)%Z -> (Z.abs m < 2 ^ 52)%Z -> value (sub FOps (f64_ofZ n) (f64_ofZ m)) = value (f64_ofZ n) - value (f64_ofZ m)).
  { intros n m N M. destruct (ofZ_exact n (W n N)) as [DN VN]. destruct (ofZ_exact m (W m M)) as [DM VM]. assert (L : (Z.abs (n - m) < 2 ^ 53)%Z) by (change (2 ^ 53)%Z with (2 * 2 ^ 52)%Z; lia).
    destruct (ofZ_exact (n - m) L) as [D V]. pose proof (whole_in_range n m (W n N) (W m M)) as [_ [[BN BM] _]].
    assert (B : below 402 (SFsub 53 1024 (f64_ofZ n) (f64_ofZ m))) by (apply (sub_below 400); auto; lia).
    destruct (sub_rn _ _ DN DM (below_finite _ _ B)) as [_ S]. cbn [sub FOps]. change f64_prec with 53%Z. change f64_emax with 1024%Z. rewrite S, VN, VM, <- minus_IZR, <- V. apply rn_id, value_fmt. exact D. }
  pose proof (whole_in_range ax ay (W _ H1) (W _ H2)) as RA. pose proof (whole_in_range bx by_ (W _ H3) (W _ H4)) as RB. pose proof (whole_in_range cx cy (W _ H5) (W _ H6)) as RC.
  destruct (C113_exact_differences fuel K (whole ax ay) (whole bx by_) (whole cx cy) E RA RB RC (X _ _ H1 H5) (X _ _ H2 H6) (X _ _ H3 H5) (X _ _ H4 H6)) as [det O].
  exists det. split; [exact O|]. destruct (C113_sign fuel K _ _ _ det E RA RB RC O) as [D [P N]]. split; [exact D|]. cbv zeta.
  assert (T : turn (place (whole ax ay)) (place (whole bx by_)) (place (whole cx cy)) = IZR ((ax - cx) * (by_ - cy) - (ay - cy) * (bx - cx))).
  { unfold turn, place, px, py, whole. cbn [vx vy]. rewrite (proj2 (ofZ_exact ax (W _ H1))), (proj2 (ofZ_exact ay (W _ H2))), (proj2 (ofZ_exact bx (W _ H3))), (proj2 (ofZ_exact by_ (W _ H4))), (proj2 (ofZ_exact cx (W _ H5))), (proj2 (ofZ_exact cy (W _ H6))).
    rewrite minus_IZR, !mult_IZR, !minus_IZR. ring. }
  rewrite T in P, N. split; [rewrite P|rewrite N]; split; intros Q; [apply lt_IZR in Q|apply IZR_lt in Q|apply lt_IZR in Q|apply IZR_lt in Q]; exact Q.
Qed.
Print Assumptions C113_integers.
(** the second stage, the exit for exact differences and the third stage each decide some points left over by the first stage *)
Definition number (r : res f64) : option f64 := match r with Ok x => Some x | _ => None end.
Example C113_cases : exists K, exactinit FOps 60 fhalf = Some K /\
  let a := (2 ^ 45)%Z in let t := S754_finite false (2 ^ 52) (-112) : f64 in let o := whole 0 0 in
  let p := whole a (a + 1) in let q := whole (a - 5 * 2 ^ 37 - 1) (a - 5 * 2 ^ 37) in
  let r := @mkV FOps (f64_ofZ 2) (S754_finite false (2 ^ 52 + 1) (-51)) in let c := @mkV FOps t (SFopp t) in
  (exists s, decided (counterclockwise FOps K false p q o) = inr s) /\ number (orientation FOps K false p q o) = Some (f64_ofZ (5 * 2 ^ 37 + 1)) /\
  (exists s, decided (counterclockwise FOps K false (whole 1 2) (whole 3 6) o) = inr s) /\ number (orientation FOps K false (whole 1 2) (whole 3 6) o) = Some (S754_zero false) /\
  (exists s, decided (counterclockwise FOps K false (whole 1 1) r c) = inr s) /\ number (orientation FOps K false (whole 1 1) r c) = Some (S754_finite false (255 * 2 ^ 45) (-104)).
Proof.
  destruct (proj1 C109_constants 60%nat (le_n _)) as [K E]. exists K. split; [exact E|]. cbv zeta.
  destruct (bounds_value _ _ E) as [_ [ES [EA _]]]. destruct (bounds_rest _ _ E) as [EB [EC ER]].
  unfold orientation, counterclockwise, counterclockwise_adapt. rewrite ES, EA, EB, EC, ER. clear.
  split; [eexists; vm_compute; reflexivity|]. split; [vm_compute; reflexivity|]. split; [eexists; vm_compute; reflexivity|]. split; [vm_compute; reflexivity|]. split; [eexists; vm_compute; reflexivity|]. vm_compute. reflexivity.
Qed.
