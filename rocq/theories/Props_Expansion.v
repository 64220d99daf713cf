(** C111, C112: the exact arithmetic of the mesh generator's orientation test. *)
From Coq Require Import String.
From Coq Require Import List Arith ZArith NArith Bool Lia Reals Lra.
From Coq Require Import Floats.SpecFloat.
From Verif Require Import Base GeometryModel GeometrySpec FloatSpec FloatBound_proofs RoundSpec Round_proofs RoundUse_proofs PredicateModel PredicateSpec Predicate_proofs Props_Predicate ExpansionModel ExpansionSpec Expansion_proofs ExpansionR_proofs.
Import ListNotations.
Local Open Scope R_scope.
Local Notation fvec := (vec FOps).

(** ** C111 *)
(** the sum of two expansions reads one component beyond the end: arrays that hold just the components are always overrun *)
Theorem C111_overrun : forall o (e f : list (T o)) cap, is_ub (fast_expansion_sum o (List.length e) e (List.length f) f cap).
Proof. intros. apply reads_past_the_end. Qed.
Print Assumptions C111_overrun.
(** one more readable cell in each array is enough, whatever it holds: the outcome is the same, there is a component, and no more than are summed *)
Theorem C111_padded : forall o (e f : list (T o)), e <> [] -> f <> [] ->
  exists h, (1 <= List.length h <= List.length e + List.length f)%nat /\
    forall j k cap, j <> [] -> k <> [] -> (List.length e + List.length f <= cap)%nat -> fast_expansion_sum o (List.length e) (e ++ j) (List.length f) (f ++ k) cap = Ok h.
Proof. intros o e f NE NF. exists (pure_sum o e f). split; [apply pure_length; auto|]. intros j k cap NJ NK C. apply padded_sum; auto. Qed.
Print Assumptions C111_padded.
(** the adaptive stage returns a number or overruns an array *)
Theorem C111_outcomes : forall o K pa pb pc s, is_ok (counterclockwise_adapt o K pa pb pc s) \/ is_ub (counterclockwise_adapt o K pa pb pc s).
Proof.
  intros. unfold counterclockwise_adapt. destruct (two_product _ _ _ _) as [l lt]. destruct (two_product _ _ _ _) as [r rt].
  assert (L : exists x0 x1 x2 x3, two_two_diff o l lt r rt = [x0; x1; x2; x3]).
  { unfold two_two_diff. destruct (two_one_diff o l lt rt) as [[j z] x0]. destruct (two_one_diff o j z r) as [[x3 x2] x1]. eauto. }
  destruct L as [x0 [x1 [x2 [x3 L]]]]. rewrite L. cbn [estimate get nth_error forM_range forM_from Nat.sub bind].
  destruct (_ || _); [left; eexists; reflexivity|]. destruct (_ && _); [left; eexists; reflexivity|]. destruct (_ || _); [left; eexists; reflexivity|].
  right. match goal with |- context [fast_expansion_sum o 4 ?e 4 ?f 8] =>
    assert (LF : List.length f = 4%nat) by (unfold two_two_diff; destruct (two_one_diff _ _ _ _) as [[j z] y0]; destruct (two_one_diff _ _ _ _) as [[y3 y2] y1]; reflexivity);
    destruct (C111_overrun o e f 8) as [w W]; rewrite LF in W; cbn [List.length] in W; rewrite W end.
  cbn [bind]. exists w. reflexivity.
Qed.
Print Assumptions C111_outcomes.
(** three points in line whose differences are not doubles: the orientation test leaves them to the adaptive stage, which overruns its arrays *)
Theorem C111_refuted : exists B (pa pb pc : fvec) s, exactinit FOps 60 fhalf = Some B /\ in_range 400 480 pa /\ in_range 400 480 pb /\ in_range 400 480 pc /\
  decided (counterclockwise FOps B false pa pb pc) = inr s /\ is_ub (counterclockwise_adapt FOps B pa pb pc s).
Proof.
  destruct (proj1 C109_constants 60%nat (le_n _)) as [B E].
  set (t := S754_finite false (2 ^ 52) (-112) : f64). set (one := S754_finite false (2 ^ 52) (-52) : f64). set (two := S754_finite false (2 ^ 52) (-51) : f64).
  exists B, (@mkV FOps one one), (@mkV FOps two two), (@mkV FOps t t), (S754_finite false (2 ^ 52) (-50)). split; [exact E|].
  assert (R1 : in_range 400 480 (@mkV FOps one one)).
  { split; [split; (split; [exact I|reflexivity])|]. split; [split; (split; [vm_compute; intros X; discriminate X|reflexivity])|].
    assert (M : multiple 480 one); [|split; exact M]. apply C109_range; [split; [exact I|reflexivity]|]. right. rewrite Rabs_right; unfold one, value; rewrite Rmult_1_l.
    - change (IZR (Z.pos (2 ^ 52))) with (IZR (2 ^ Z.of_nat 52)). rewrite <- pow_IZR, pow_powerRZ, <- powerRZ_add by lra. change (Z.of_nat 52 + -52)%Z with 0%Z. rewrite !powerRZ_Rpower by lra. apply Rle_Rpower; [lra|apply IZR_le; lia].
    - apply Rle_ge, Rmult_le_pos; [apply IZR_le; lia|apply powerRZ_le; lra]. }
  assert (R2 : in_range 400 480 (@mkV FOps two two)).
  { split; [split; (split; [exact I|reflexivity])|]. split; [split; (split; [vm_compute; intros X; discriminate X|reflexivity])|].
    assert (M : multiple 480 two); [|split; exact M]. apply C109_range; [split; [exact I|reflexivity]|]. right. rewrite Rabs_right; unfold two, value; rewrite Rmult_1_l.
    - change (IZR (Z.pos (2 ^ 52))) with (IZR (2 ^ Z.of_nat 52)). rewrite <- pow_IZR, pow_powerRZ, <- powerRZ_add by lra. change (Z.of_nat 52 + -51)%Z with 1%Z. rewrite !powerRZ_Rpower by lra. apply Rle_Rpower; [lra|apply IZR_le; lia].
    - apply Rle_ge, Rmult_le_pos; [apply IZR_le; lia|apply powerRZ_le; lra]. }
  assert (R3 : in_range 400 480 (@mkV FOps t t)).
  { split; [split; (split; [exact I|reflexivity])|]. split; [split; (split; [vm_compute; intros X; discriminate X|reflexivity])|].
    assert (M : multiple 480 t); [|split; exact M]. apply C109_range; [split; [exact I|reflexivity]|]. right. rewrite Rabs_right; unfold t, value; rewrite Rmult_1_l.
    - change (IZR (Z.pos (2 ^ 52))) with (IZR (2 ^ Z.of_nat 52)). rewrite <- pow_IZR, pow_powerRZ, <- powerRZ_add by lra. change (Z.of_nat 52 + -112)%Z with (-60)%Z. rewrite !powerRZ_Rpower by lra. apply Rle_Rpower; [lra|apply IZR_le; lia].
    - apply Rle_ge, Rmult_le_pos; [apply IZR_le; lia|apply powerRZ_le; lra]. }
  split; [exact R1|]. split; [exact R2|]. split; [exact R3|]. clear R1 R2 R3.
  destruct (bounds_value _ _ E) as [_ [ES [EA _]]]. destruct (bounds_rest _ _ E) as [EB [EC ER]]. split.
  - unfold counterclockwise. rewrite EA. clear. vm_compute. reflexivity.
  - assert (U : match counterclockwise_adapt FOps B (@mkV FOps one one) (@mkV FOps two two) (@mkV FOps t t) (S754_finite false (2 ^ 52) (-50)) with UB _ => true | _ => false end = true).
    { unfold counterclockwise_adapt. rewrite ES, EB, EC, ER. clear. vm_compute. reflexivity. }
    destruct (counterclockwise_adapt _ _ _ _ _ _); try discriminate U. eexists. reflexivity.
Qed.
Print Assumptions C111_refuted.
(** expansions of two components: overrun without padding, the same sum with any padding *)
Example C111_cases : let l := map f64_ofZ in
  is_ub (fast_expansion_sum FOps 2 (l [1; 4]%Z) 2 (l [2; 32]%Z) 4) /\
  forall j k, fast_expansion_sum FOps 2 (l [1; 4; j]%Z) 2 (l [2; 32; k]%Z) 4 = Ok (l [39]%Z).
Proof.
  cbv zeta. split; [apply (C111_overrun FOps (map f64_ofZ [1; 4]%Z) (map f64_ofZ [2; 32]%Z) 4)|]. intros j k.
  change (map f64_ofZ [1; 4; j]%Z) with (map f64_ofZ [1; 4]%Z ++ [f64_ofZ j]). change (map f64_ofZ [2; 32; k]%Z) with (map f64_ofZ [2; 32]%Z ++ [f64_ofZ k]).
  refine (eq_trans (padded_sum FOps (map f64_ofZ [1; 4]%Z) [f64_ofZ j] (map f64_ofZ [2; 32]%Z) [f64_ofZ k] 4 _ _ _ _ _) _); try (intros X; discriminate X); [apply le_n|].
  apply f_equal. vm_compute. reflexivity.
Qed.

(** ** C112 *)
(** a sum and its error, a difference and its error: exact for all doubles, if the error is a number *)
Theorem C112_sum : forall a b : f64, double a -> double b -> finite (snd (two_sum FOps a b)) ->
  double (fst (two_sum FOps a b)) /\ double (snd (two_sum FOps a b)) /\ value (fst (two_sum FOps a b)) + value (snd (two_sum FOps a b)) = value a + value b.
Proof. intros a b DA DB F. destruct (two_sum_exact a b DA DB F) as [A [B [_ C]]]. auto. Qed.
Print Assumptions C112_sum.
Theorem C112_difference : forall a b : f64, double a -> double b -> finite (two_diff_tail FOps a b (sub FOps a b)) ->
  double (sub FOps a b) /\ double (two_diff_tail FOps a b (sub FOps a b)) /\ value (sub FOps a b) + value (two_diff_tail FOps a b (sub FOps a b)) = value a - value b.
Proof. intros a b DA DB F. destruct (two_diff_exact a b DA DB F) as [A [B [_ C]]]. auto. Qed.
Print Assumptions C112_difference.
(** the short form needs its first argument to be the larger one; otherwise it is wrong *)
Theorem C112_fast_sum : forall a b : f64, double a -> double b -> value a = 0 \/ Rabs (value b) <= Rabs (value a) -> finite (snd (fast_two_sum FOps a b)) ->
  double (fst (fast_two_sum FOps a b)) /\ double (snd (fast_two_sum FOps a b)) /\ value (fst (fast_two_sum FOps a b)) + value (snd (fast_two_sum FOps a b)) = value a + value b.
Proof. intros a b DA DB O F. apply (fast_exact a b DA DB O F). Qed.
Print Assumptions C112_fast_sum.
(** a product and its error, with the splitter found at start-up *)
Theorem C112_product : forall fuel K (a b : f64), exactinit FOps fuel fhalf = Some K -> double a -> double b -> finite (snd (two_product FOps (splitter FOps K) a b)) ->
  value a * value b = 0 \/ powerRZ 2 (-969) <= Rabs (value a * value b) ->
  double (fst (two_product FOps (splitter FOps K) a b)) /\ double (snd (two_product FOps (splitter FOps K) a b)) /\
  value (fst (two_product FOps (splitter FOps K) a b)) + value (snd (two_product FOps (splitter FOps K) a b)) = value a * value b.
Proof.
  intros fuel K a b E DA DB F U. destruct (bounds_value _ _ E) as [_ [ES _]]. destruct (proj2 C109_constants _ _ E) as [_ [VS _]].
  assert (DS : double (splitter FOps K)) by (rewrite ES; split; [exact I|reflexivity]).
  destruct (product_exact _ a b DS VS DA DB F U) as [A [B [_ C]]]. auto.
Qed.
Print Assumptions C112_product.
(** the difference of two such products as four components *)
Theorem C112_four : forall a1 a0 b1 b0 : f64, double a1 -> double a0 -> double b1 -> double b0 -> Forall finite (two_two_diff FOps a1 a0 b1 b0) ->
  Forall double (two_two_diff FOps a1 a0 b1 b0) /\ total (two_two_diff FOps a1 a0 b1 b0) = (value a1 + value a0) - (value b1 + value b0).
Proof. exact two_two_diff_exact. Qed.
Print Assumptions C112_four.
(** the sum of two expansions, in arrays that can be read one cell beyond their components *)
Theorem C112_expansions : forall (e f j k h : list f64) cap, Forall double e -> Forall double f -> e <> [] -> f <> [] -> j <> [] -> k <> [] -> ordered e -> ordered f ->
  (List.length e + List.length f <= cap)%nat -> fast_expansion_sum FOps (List.length e) (e ++ j) (List.length f) (f ++ k) cap = Ok h -> Forall finite h ->
  Forall double h /\ total h = total e + total f.
Proof.
  intros e f j k h cap DE DF NE NF NJ NK OE OF C H FH. pose proof (padded_sum FOps e j f k cap NJ NK C NE NF) as P.
  assert (EH : h = pure_sum FOps e f) by (assert (X : Ok h = Ok (pure_sum FOps e f)) by (rewrite <- H; exact P); injection X as X; exact X).
  subst h. apply pure_total; auto.
Qed.
Print Assumptions C112_expansions.
(** hence the exact arithmetic starts from the right number: the determinant of the rounded differences without error, and of the points themselves if the differences are doubles *)
Theorem C112_determinant : forall fuel K (pa pb pc : fvec), exactinit FOps fuel fhalf = Some K -> double_point pa -> double_point pb -> double_point pc ->
  let ax := sub FOps (vx pa) (vx pc) in let bx := sub FOps (vx pb) (vx pc) in let ay := sub FOps (vy pa) (vy pc) in let by_ := sub FOps (vy pb) (vy pc) in
  let l := two_product FOps (splitter FOps K) ax by_ in let r := two_product FOps (splitter FOps K) ay bx in
  let B := two_two_diff FOps (fst l) (snd l) (fst r) (snd r) in
  value ax * value by_ = 0 \/ powerRZ 2 (-969) <= Rabs (value ax * value by_) -> value ay * value bx = 0 \/ powerRZ 2 (-969) <= Rabs (value ay * value bx) ->
  finite (snd l) -> finite (snd r) -> Forall finite B ->
  total B = value ax * value by_ - value ay * value bx /\
  (Forall (fun t => finite t /\ value t = 0) [two_diff_tail FOps (vx pa) (vx pc) ax; two_diff_tail FOps (vx pb) (vx pc) bx; two_diff_tail FOps (vy pa) (vy pc) ay; two_diff_tail FOps (vy pb) (vy pc) by_] ->
   total B = turn (place pa) (place pb) (place pc)).
Proof.
  intros fuel K pa pb pc E [A1 A2] [B1 B2] [C1 C2] ax bx ay by_ l r B UL UR FL FR FB.
  assert (FM : forall x y, finite (snd (two_product FOps (splitter FOps K) x y)) -> finite x /\ finite y).
  { intros x y F. assert (FX : finite (fst (two_product FOps (splitter FOps K) x y))).
    { unfold two_product in *. destruct (split FOps (splitter FOps K) x) as [p q]. destruct (split FOps (splitter FOps K) y) as [p' q']. cbn [fst snd] in *.
      apply sub_finite in F. destruct F as [_ F]. apply sub_finite in F. destruct F as [F _]. apply sub_finite in F. destruct F as [F _]. apply sub_finite in F. tauto. }
    unfold two_product in FX. destruct (split FOps (splitter FOps K) x) as [p q]. destruct (split FOps (splitter FOps K) y) as [p' q']. cbn [fst] in FX. apply mul_finite in FX. exact FX. }
  destruct (FM _ _ FL) as [Fax Fby]. destruct (FM _ _ FR) as [Fay Fbx].
  destruct (sub_rn _ _ A1 C1 Fax) as [Dax _]. destruct (sub_rn _ _ B2 C2 Fby) as [Dby _]. destruct (sub_rn _ _ A2 C2 Fay) as [Day _]. destruct (sub_rn _ _ B1 C1 Fbx) as [Dbx _].
  destruct (C112_product fuel K ax by_ E Dax Dby FL UL) as [L1 [L2 L3]]. destruct (C112_product fuel K ay bx E Day Dbx FR UR) as [R1 [R2 R3]].
  destruct (C112_four _ _ _ _ L1 L2 R1 R2 FB) as [_ TB]. fold l r in L3, R3, TB. fold B in TB. rewrite L3, R3 in TB. split; [exact TB|].
  intros Z. rewrite TB. pose proof (Forall_inv Z) as [Z1 V1]. apply Forall_inv_tail in Z. pose proof (Forall_inv Z) as [Z2 V2]. apply Forall_inv_tail in Z.
  pose proof (Forall_inv Z) as [Z3 V3]. apply Forall_inv_tail in Z. pose proof (Forall_inv Z) as [Z4 V4]. clear Z.
  destruct (C112_difference _ _ A1 C1 Z1) as [_ [_ S1]]. destruct (C112_difference _ _ B1 C1 Z2) as [_ [_ S2]]. destruct (C112_difference _ _ A2 C2 Z3) as [_ [_ S3]]. destruct (C112_difference _ _ B2 C2 Z4) as [_ [_ S4]].
  fold ax in S1. fold bx in S2. fold ay in S3. fold by_ in S4. rewrite V1, Rplus_0_r in S1. rewrite V2, Rplus_0_r in S2. rewrite V3, Rplus_0_r in S3. rewrite V4, Rplus_0_r in S4.
  rewrite S1, S2, S3, S4. unfold turn, place, px, py. cbn [vx vy]. ring.
Qed.
Print Assumptions C112_determinant.
(** without the order the short sum loses the error: 3/2 + 2^53 *)
Theorem C112_fast_sum_refuted : exists a b : f64, double a /\ double b /\ finite (snd (fast_two_sum FOps a b)) /\
  value (fst (fast_two_sum FOps a b)) + value (snd (fast_two_sum FOps a b)) <> value a + value b.
Proof.
  set (a := S754_finite false 6755399441055744 (-52) : f64). set (b := S754_finite false 4503599627370496 1 : f64).
  assert (E : fast_two_sum FOps a b = (S754_finite false 4503599627370497 1, S754_zero false)) by (vm_compute; reflexivity).
  exists a, b. rewrite E. cbn [fst snd]. split; [split; [exact I|reflexivity]|]. split; [split; [exact I|reflexivity]|]. split; [exact I|].
  unfold a, b, value. change (powerRZ 2 1) with (2 ^ 1). change (powerRZ 2 (-52)) with (/ 2 ^ 52). rewrite !pow_IZR. change (2 ^ Z.of_nat 52)%Z with 4503599627370496%Z. change (2 ^ Z.of_nat 1)%Z with 2%Z. lra.
Qed.
Print Assumptions C112_fast_sum_refuted.
(** 1 + 2^-60 and 1 - 2^-60 keep their small parts; (2^27 + 1)^2 has a low half; the sum of two expansions in padded arrays *)
Example C112_cases : let t := S754_finite false (2 ^ 52) (-112) : f64 in let one := f64_ofZ 1 in let n := f64_ofZ 134217729 in
  two_sum FOps one t = (one, t) /\ two_diff FOps one t = (one, SFopp t) /\
  two_product FOps (f64_ofZ 134217729) n n = (f64_ofZ 18014398777917440, f64_ofZ 1) /\
  two_two_diff FOps (f64_ofZ 18014398777917440) (f64_ofZ 1) (f64_ofZ 18014398777917440) t = [SFopp t; f64_ofZ 1; S754_zero false; S754_zero false] /\
  (forall j k, fast_expansion_sum FOps 2 ([t; one] ++ [j]) 2 ([SFopp t; n] ++ [k]) 4 = Ok [f64_ofZ 134217730]) /\ ordered [t; one] /\ ordered [SFopp t; n].
Proof.
  cbv zeta. split; [vm_compute; reflexivity|]. split; [vm_compute; reflexivity|]. split; [vm_compute; reflexivity|]. split; [vm_compute; reflexivity|].
  assert (V1 : value (f64_ofZ 1) = 1) by (apply (ofZ_exact 1 eq_refl)). assert (V2 : value (f64_ofZ 134217729) = 134217729) by (apply (ofZ_exact 134217729 eq_refl)).
  assert (VT : 0 <= value (S754_finite false (2 ^ 52) (-112)) <= 1).
  { unfold value. rewrite Rmult_1_l. change (IZR (Z.pos (2 ^ 52))) with (IZR (2 ^ Z.of_nat 52)). rewrite <- pow_IZR, pow_powerRZ, <- powerRZ_add by lra. change (Z.of_nat 52 + -112)%Z with (-60)%Z.
    split; [apply powerRZ_le; lra|]. apply Rle_trans with (powerRZ 2 0); [|cbn; lra]. rewrite !powerRZ_Rpower by lra. apply Rle_Rpower; [lra|apply IZR_le; lia]. }
  split.
  - intros j k. refine (eq_trans (padded_sum FOps [S754_finite false (2 ^ 52) (-112); f64_ofZ 1] [j] [SFopp (S754_finite false (2 ^ 52) (-112)); f64_ofZ 134217729] [k] 4 _ _ _ _ _) _); try (intros X; discriminate X); [apply le_n|]. apply f_equal. vm_compute. reflexivity.
  - unfold ordered. rewrite opp_value, V1, V2. split; right; rewrite ?Rabs_Ropp; rewrite !Rabs_right by lra; lra.
Qed.
