(** C114: the product of an expansion and a number in the mesh generator. *)
From Coq Require Import String.
From Coq Require Import List Arith ZArith NArith Bool Lia Reals Lra.
From Coq Require Import Floats.SpecFloat.
From Verif Require Import Base GeometryModel GeometrySpec FloatSpec FloatBound_proofs RoundSpec Round_proofs RoundUse_proofs PredicateModel PredicateSpec Predicate_proofs Props_Predicate ExpansionModel ExpansionSpec Expansion_proofs ExpansionR_proofs StageB_proofs ScaleModel Scale_proofs.
Import ListNotations.
Local Open Scope R_scope.

(** unlike the sum (C111) the product stays inside its arrays: two cells for each component suffice, nothing after the components is read, and there is a component *)
Theorem C114_inside : forall o spl (e : list (T o)) b, e <> [] ->
  exists h, (1 <= List.length h <= 2 * List.length e)%nat /\ forall j cap, (2 * List.length e <= cap)%nat -> scale_expansion o spl (List.length e) (e ++ j) b cap = Ok h.
Proof. intros o spl e b NE. exists (pure_scale o spl b e). split; [apply (scale_pure o spl b e [] (2 * List.length e)); auto|]. intros j cap C. apply scale_pure; auto. Qed.
Print Assumptions C114_inside.
(** only an expansion without components is read outside its array *)
Theorem C114_empty : forall o spl elen (b : T o) cap, is_ub (scale_expansion o spl elen [] b cap).
Proof. intros. unfold scale_expansion. destruct (split o spl b) as [bhi blo]. eexists. reflexivity. Qed.
Print Assumptions C114_empty.
(** every later component is zero or at least four times as large *)
Definition spread (l : list f64) : Prop := forall i k x y, nth_error l i = Some x -> nth_error l k = Some y -> (i < k)%nat -> value y = 0 \/ 4 * Rabs (value x) <= Rabs (value y).
Lemma spread_pairs : forall l, spread l -> ForallOrdPairs (fun x y => value y = 0 \/ 4 * Rabs (value x) <= Rabs (value y)) l.
Proof.
  induction l as [|x l IH]; intros S; constructor.
  - apply Forall_forall. intros y Y. apply In_nth_error in Y. destruct Y as [k Y]. apply (S 0%nat (Datatypes.S k) x y); [reflexivity|exact Y|lia].
  - apply IH. intros i k a b A B L. apply (S (Datatypes.S i) (Datatypes.S k) a b A B). lia.
Qed.
Lemma spread_two : forall a b, 4 * Rabs (value a) <= Rabs (value b) -> spread [a; b].
Proof.
  intros a b H i k x y X Y L. destruct i as [|[|i]]; destruct k as [|[|k]]; try lia; cbn [nth_error] in X, Y; try discriminate; try (destruct i; discriminate); try (destruct k; discriminate).
  injection X as <-. injection Y as <-. right. exact H.
Qed.
(** the components of the result have just the sum that the product has *)
Theorem C114_exact : forall fuel K (e j h : list f64) (b : f64) cap, exactinit FOps fuel fhalf = Some K -> e <> [] -> Forall double e -> double b -> spread e ->
  Forall (fun x => value x * value b = 0 \/ powerRZ 2 (-969) <= Rabs (value x * value b)) e -> (2 * List.length e <= cap)%nat ->
  scale_expansion FOps (splitter FOps K) (List.length e) (e ++ j) b cap = Ok h -> Forall finite h -> Forall double h /\ total h = total e * value b.
Proof.
  intros fuel K e j h b cap E NE DE DB S U C H F. destruct (bounds_value _ _ E) as [_ [ES _]]. destruct (proj2 C109_constants _ _ E) as [_ [VS _]].
  assert (DS : double (splitter FOps K)) by (rewrite ES; split; [exact I|reflexivity]).
  destruct (scale_pure FOps (splitter FOps K) b e j cap NE C) as [P _]. assert (Q : h = pure_scale FOps (splitter FOps K) b e) by (pose proof (eq_trans (eq_sym H) P) as X; injection X; auto).
  rewrite Q in *. apply scale_total; auto using spread_pairs.
Qed.
Print Assumptions C114_exact.
(** the two parts of an exact product have the distance: three numbers are multiplied exactly *)
Theorem C114_three : forall fuel K (a c b : f64) (j h : list f64) cap, exactinit FOps fuel fhalf = Some K -> double a -> double c -> double b ->
  let p := two_product FOps (splitter FOps K) a c in
  finite (snd p) -> (value a * value c = 0 \/ powerRZ 2 (-969) <= Rabs (value a * value c)) ->
  Forall (fun x => value x * value b = 0 \/ powerRZ 2 (-969) <= Rabs (value x * value b)) [snd p; fst p] -> (4 <= cap)%nat ->
  scale_expansion FOps (splitter FOps K) 2 ([snd p; fst p] ++ j) b cap = Ok h -> Forall finite h -> Forall double h /\ total h = value a * value c * value b.
Proof.
  intros fuel K a c b j h cap E DA DC DB p Fp U UB C H F. destruct (bounds_value _ _ E) as [_ [ES _]]. destruct (proj2 C109_constants _ _ E) as [_ [VS _]].
  assert (DS : double (splitter FOps K)) by (rewrite ES; split; [exact I|reflexivity]).
  destruct (product_exact _ a c DS VS DA DC Fp U) as [D1 [D0 [V1 S1]]]. fold p in D1, D0, V1, S1.
  assert (P0 : Rabs (value (snd p)) <= u * Rabs (value (fst p))) by (rewrite V1; apply mul_back; [exact U|]; rewrite <- V1; exact S1).
  assert (SP : spread [snd p; fst p]).
  { apply spread_two. clear - P0. pose proof (Rabs_pos (value (fst p))). rewrite u_num in P0. lra. }
  destruct (C114_exact fuel K [snd p; fst p] j h b cap E ltac:(discriminate) ltac:(auto) DB SP UB C H F) as [R1 R2]. split; [exact R1|]. rewrite R2. cbn [total]. rewrite <- S1. ring.
Qed.
Print Assumptions C114_three.
(** without the distance between the components it is not: 2^53 and 3/2, times 1 *)
Theorem C114_close_refuted : exists (e h : list f64) (b : f64), Forall double e /\ double b /\ scale_expansion FOps (f64_ofZ 134217729) 2 e b 4 = Ok h /\ Forall finite h /\ total h <> total e * value b.
Proof.
  set (x := S754_finite false 4503599627370496 1 : f64). set (y := S754_finite false 6755399441055744 (-52) : f64).
  exists [x; y], [S754_finite false 4503599627370497 1 : f64], (f64_ofZ 1).
  assert (P : pure_scale FOps (f64_ofZ 134217729) (f64_ofZ 1) [x; y] = [S754_finite false 4503599627370497 1]) by (vm_compute; reflexivity).
  split; [repeat constructor|]. split; [split; [exact I|reflexivity]|]. split.
  { refine (eq_trans (proj1 (scale_pure FOps (f64_ofZ 134217729) (f64_ofZ 1) [x; y] [] 4 _ _)) _); [intros X; discriminate X|apply le_n|]. apply f_equal. exact P. }
  split; [repeat constructor|]. assert (V1 : value (f64_ofZ 1) = 1) by (apply (ofZ_exact 1 eq_refl)). rewrite V1. cbn [total].
  unfold x, y, value. change (powerRZ 2 1) with (2 ^ 1). change (powerRZ 2 (-52)) with (/ 2 ^ 52). rewrite !pow_IZR. change (2 ^ Z.of_nat 52)%Z with 4503599627370496%Z. change (2 ^ Z.of_nat 1)%Z with 2%Z. lra.
Qed.
Print Assumptions C114_close_refuted.
(** 1 and 2^27 + 1, times 2^27 + 1: the product 2^54 + 3 2^27 + 2 needs more than 53 bits and takes two components *)
Example C114_cases : let e := [f64_ofZ 1; f64_ofZ 134217729] in spread e /\
  (forall j, scale_expansion FOps (f64_ofZ 134217729) 2 (e ++ j) (f64_ofZ 134217729) 4 = Ok (pure_scale FOps (f64_ofZ 134217729) (f64_ofZ 134217729) e)) /\
  pure_scale FOps (f64_ofZ 134217729) (f64_ofZ 134217729) e = [f64_ofZ 2; f64_ofZ (2 ^ 54 + 3 * 2 ^ 27)].
Proof.
  cbv zeta. split; [|split].
  - assert (V1 : value (f64_ofZ 1) = 1) by (apply (ofZ_exact 1 eq_refl)). assert (V2 : value (f64_ofZ 134217729) = 134217729) by (apply (ofZ_exact 134217729 eq_refl)).
    apply spread_two. rewrite V1, V2. rewrite !Rabs_right by lra. lra.
  - intros j. refine (proj1 (scale_pure FOps (f64_ofZ 134217729) (f64_ofZ 134217729) [f64_ofZ 1; f64_ofZ 134217729] j 4 _ _)); [intros X; discriminate X|apply le_n].
  - vm_compute. reflexivity.
Qed.
(** (2^27 + 1)^2 as two parts, times 3 *)
Example C114_three_case : let n := f64_ofZ 134217729 in let p := two_product FOps n n n in
  p = (f64_ofZ 18014398777917440, f64_ofZ 1) /\ pure_scale FOps n (f64_ofZ 3) [snd p; fst p] = [f64_ofZ 3; f64_ofZ (3 * 18014398777917440)].
Proof. cbv zeta. split; vm_compute; reflexivity. Qed.
