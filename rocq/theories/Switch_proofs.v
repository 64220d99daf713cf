(** The switch string and its reading. *)
From Coq Require Import String Ascii.
From Coq Require Import List Arith ZArith Bool Reals Lia Lra.
From Coq Require Import SpecFloat.
From Verif Require Import Base SwitchModel SwitchSpec.
Import ListNotations.
Local Open Scope Z_scope.

(** ** digits *)
Lemma digit_nat : forall d, 0 <= d < 10 -> nat_of_ascii (digit d) = (48 + Z.to_nat d)%nat.
Proof. intros d H. unfold digit. apply nat_ascii_embedding. lia. Qed.
Lemma digit_is : forall d, 0 <= d < 10 -> is_digit (digit d) = true.
Proof. intros d H. unfold is_digit. rewrite digit_nat by exact H. apply andb_true_iff. split; apply Nat.leb_le; lia. Qed.
Lemma digit_value : forall d, 0 <= d < 10 -> digit_of (digit d) = d.
Proof. intros d H. unfold digit_of. rewrite digit_nat by exact H. lia. Qed.
Definition dval (l : list ascii) (v : Z) : Z := fold_left (fun v c => 10 * v + digit_of c) l v.
Definition all_digits (l : list ascii) : Prop := Forall (fun c => is_digit c = true) l.

Lemma pow10_S : forall k, 10 ^ Z.of_nat (S k) = 10 * 10 ^ Z.of_nat k.
Proof. intro k. rewrite Nat2Z.inj_succ, Z.pow_succ_r by lia. reflexivity. Qed.
Lemma pow2_S : forall k, 2 ^ Z.of_nat (S k) = 2 * 2 ^ Z.of_nat k.
Proof. intro k. rewrite Nat2Z.inj_succ, Z.pow_succ_r by lia. reflexivity. Qed.

Lemma digits_from_spec : forall f z acc, 0 <= z < 2 ^ Z.of_nat f -> (0 < f)%nat -> all_digits acc ->
  all_digits (digits_from f z acc) /\ dval (digits_from f z acc) 0 = dval acc z /\
  (forall k, has_digits z k -> length (digits_from f z acc) = (k + length acc)%nat) /\ digits_from f z acc <> [].
Proof.
  induction f as [|f IH]; intros z acc H F A; [lia|]. cbn [digits_from]. destruct (Z.ltb_spec z 10) as [L|L].
  - split; [|split; [|split]].
    + constructor; [apply digit_is; lia|exact A].
    + unfold dval; cbn [fold_left]. rewrite digit_value by lia. apply (f_equal (fold_left _ acc)). lia.
    + intros k [K1 [K2 K3]]. destruct K3 as [->|K3]; [reflexivity|]. destruct k as [|[|k]]; [lia|reflexivity|].
      cbn [pred] in K3. rewrite pow10_S in K3. assert (1 <= 10 ^ Z.of_nat k) by (apply Z.lt_pred_le; apply Z.pow_pos_nonneg; lia). lia.
    + discriminate.
  - rewrite pow2_S in H.
    assert (D : 0 <= z / 10 < 2 ^ Z.of_nat f) by (split; [apply Z.div_pos; lia|apply Z.div_lt_upper_bound; lia]).
    assert (M : 0 <= z mod 10 < 10) by (apply Z.mod_pos_bound; lia).
    assert (F' : (0 < f)%nat) by (destruct f; [cbn in H; lia|lia]).
    destruct (IH (z / 10) (digit (z mod 10) :: acc) D F') as [I1 [I2 [I3 I4]]]; [constructor; [apply digit_is; exact M|exact A]|].
    split; [exact I1|]. split; [|split; [|exact I4]].
    + rewrite I2. unfold dval; cbn [fold_left]. rewrite digit_value by exact M. apply (f_equal (fold_left _ acc)). symmetry. apply Z.div_mod. lia.
    + intros k [K1 [K2 K3]]. destruct k as [|[|k]]; [lia|cbn in K2; lia|]. destruct K3 as [K3|K3]; [lia|]. cbn [pred] in K3.
      rewrite (I3 (S k)); [cbn [length]; lia|]. rewrite (pow10_S (S k)) in K2. split; [lia|]. split.
      * split; [lia|]. apply Z.div_lt_upper_bound; lia.
      * destruct k as [|k]; [left; reflexivity|]. right. cbn [pred]. rewrite pow10_S in K3. apply Z.div_le_lower_bound; lia.
Qed.
Lemma digits_spec : forall z, 0 <= z -> all_digits (digits z) /\ dval (digits z) 0 = z /\
  (forall k, has_digits z k -> length (digits z) = k) /\ digits z <> [].
Proof.
  intros z H. unfold digits. destruct (digits_from_spec (S (Z.to_nat (Z.log2 z))) z []) as [A [B [C D]]]; [|lia|constructor|].
  - split; [exact H|]. rewrite Nat2Z.inj_succ, Z2Nat.id by apply Z.log2_nonneg.
    destruct (Z.eq_dec z 0) as [->|N]; [reflexivity|]. apply Z.log2_spec. lia.
  - split; [exact A|]. split; [exact B|]. split; [|exact D]. intros k K. rewrite (C k K). cbn. lia.
Qed.
Lemma padded_spec : forall k z acc, 0 <= z -> all_digits acc ->
  all_digits (padded k z acc) /\ (forall v, dval (padded k z acc) v = dval acc (v * 10 ^ Z.of_nat k + z mod 10 ^ Z.of_nat k)) /\
  length (padded k z acc) = (k + length acc)%nat.
Proof.
  induction k as [|k IH]; intros z acc H A; cbn [padded].
  - split; [exact A|]. split; [|reflexivity]. intro v. change (10 ^ Z.of_nat 0) with 1. rewrite Z.mod_1_r. f_equal. lia.
  - assert (M : 0 <= z mod 10 < 10) by (apply Z.mod_pos_bound; lia).
    destruct (IH (z / 10) (digit (z mod 10) :: acc)) as [I1 [I2 I3]]; [apply Z.div_pos; lia|constructor; [apply digit_is; exact M|exact A]|].
    split; [exact I1|]. split; [|rewrite I3; cbn [length]; lia].
    intro v. rewrite I2. unfold dval; cbn [fold_left]. rewrite digit_value by exact M. apply (f_equal (fold_left _ acc)). rewrite pow10_S.
    assert (P : 0 < 10 ^ Z.of_nat k) by (apply Z.pow_pos_nonneg; lia). rewrite Z.rem_mul_r by lia. lia.
Qed.
Lemma nearest_spec : forall a b, 0 <= a -> 0 < b -> 0 <= nearest a b /\ - b <= 2 * (b * nearest a b - a) <= b /\ (2 * (b * nearest a b - a) = b \/ 2 * (b * nearest a b - a) = - b -> Z.even (nearest a b) = true).
Proof.
  intros a b A B. unfold nearest. pose proof (Z.div_mod a b ltac:(lia)) as D. pose proof (Z.mod_pos_bound a b B) as M.
  assert (Q : 0 <= a / b) by (apply Z.div_pos; lia).
  destruct (Z.compare_spec (2 * (a mod b)) b) as [E|E|E].
  - destruct (Z.even (a / b)) eqn:Ev; split; [lia|split; [nia|intro; exact Ev]|lia|split; [nia|]].
    intros _. rewrite Z.even_add, Ev. reflexivity.
  - split; [lia|]. split; [nia|]. intro; nia.
  - split; [lia|]. split; [nia|]. intro; nia.
Qed.
Lemma powerRZ_nonneg : forall e, 0 <= e -> powerRZ 2 e = IZR (2 ^ e).
Proof.
  intros e E. destruct e as [|p|p]; [reflexivity| |lia]. cbn [powerRZ]. rewrite pow_IZR. rewrite positive_nat_Z. reflexivity.
Qed.
Lemma powerRZ_neg2 : forall e, e < 0 -> powerRZ 2 e = (/ IZR (2 ^ (- e)))%R.
Proof.
  intros e E. destruct e as [|p|p]; [lia|lia|]. cbn [powerRZ Z.opp]. rewrite pow_IZR. rewrite positive_nat_Z. reflexivity.
Qed.
Lemma scaled_spec : forall m e, 0 <= scaled (Z.pos m) e /\ rounds_to (area_of m e) (scaled (Z.pos m) e).
Proof.
  intros m e. unfold scaled, rounds_to, area_of. destruct (Z.leb_spec 0 e) as [E|E].
  - split; [assert (0 < 2 ^ e) by (apply Z.pow_pos_nonneg; lia); lia|]. rewrite powerRZ_nonneg by exact E.
    rewrite pow_IZR. change (Z.of_nat 17) with 17. rewrite <- !mult_IZR, <- minus_IZR, Z.sub_diag, Rabs_R0. split; [lra|]. intro; lra.
  - assert (P : 0 < 2 ^ (- e)) by (apply Z.pow_pos_nonneg; lia). rewrite powerRZ_neg2 by exact E.
    destruct (nearest_spec (Z.pos m * 10 ^ 17) (2 ^ (- e)) ltac:(lia) P) as [N1 [N2 N3]]. split; [exact N1|].
    set (n := nearest (Z.pos m * 10 ^ 17) (2 ^ (- e))) in *. set (b := 2 ^ (- e)) in *.
    assert (Q : (IZR n - IZR (Z.pos m) * / IZR b * 10 ^ 17 = IZR (2 * (b * n - Z.pos m * 10 ^ 17)) * / IZR b * / 2)%R).
    { rewrite mult_IZR, minus_IZR, !mult_IZR. rewrite pow_IZR. change (Z.of_nat 17) with 17.
      assert (IZR b <> 0)%R by (apply not_0_IZR; lia). field. exact H. }
    rewrite Q. set (w := 2 * (b * n - Z.pos m * 10 ^ 17)) in *.
    assert (PB : (0 < IZR b)%R) by (apply IZR_lt; exact P).
    assert (W : (IZR w * / IZR b * / 2 = / 2 * (IZR w / IZR b))%R) by (unfold Rdiv; ring).
    rewrite W. rewrite Rabs_mult. rewrite (Rabs_right (/ 2)) by lra.
    destruct N2 as [L1 L2]. apply IZR_le in L1. apply IZR_le in L2. rewrite opp_IZR in L1.
    assert (B1 : (IZR w / IZR b <= 1)%R) by (apply Rmult_le_reg_r with (IZR b); [exact PB|unfold Rdiv; rewrite Rmult_assoc, Rinv_l by lra; lra]).
    assert (B2 : (-1 <= IZR w / IZR b)%R) by (apply Rmult_le_reg_r with (IZR b); [exact PB|unfold Rdiv; rewrite Rmult_assoc, Rinv_l by lra; lra]).
    split.
    + assert (Rabs (IZR w / IZR b) <= 1)%R by (apply Rabs_le; lra). lra.
    + intro Hh. apply N3. assert (Ra : Rabs (IZR w / IZR b) = 1%R) by lra.
      assert (X : (IZR w / IZR b = 1 \/ IZR w / IZR b = -1)%R) by (unfold Rabs in Ra; destruct (Rcase_abs _); lra).
      assert (Y : (IZR w = (IZR w / IZR b) * IZR b)%R) by (field; lra).
      destruct X as [X|X]; rewrite X in Y; [left|right]; apply eq_IZR; rewrite ?opp_IZR; lra.
Qed.

(** ** reading *)
Lemma span_app : forall f l r, Forall (fun c => f c = true) l -> match r with c :: _ => f c = false | [] => True end -> span f (l ++ r) = (l, r).
Proof.
  induction l as [|c l IH]; intros r H R; cbn [app span].
  - destruct r as [|c r]; [reflexivity|]. cbn [span]. rewrite R. reflexivity.
  - inversion H; subst. rewrite H2, IH; [reflexivity|assumption|assumption].
Qed.
Lemma strtod_int_digits : forall l v, all_digits l -> strtod_int l v = mkDec (dval l v) 0.
Proof. induction l as [|c l IH]; intros v H; cbn [strtod_int]; [reflexivity|]. inversion H; subst. rewrite H2. apply IH. assumption. Qed.
Lemma strtod_frac_digits : forall l v k, all_digits l -> strtod_frac l v k = mkDec (dval l v) (k + length l).
Proof.
  induction l as [|c l IH]; intros v k H; cbn [strtod_frac length]; [f_equal; lia|]. inversion H; subst. rewrite H2, IH by assumption.
  unfold dval. cbn [fold_left]. f_equal. lia.
Qed.
Lemma strtod_point : forall l r v, all_digits l -> all_digits r -> strtod_int (l ++ "."%char :: r) v = mkDec (dval r (dval l v)) (length r).
Proof.
  induction l as [|c l IH]; intros r v H R; cbn [app strtod_int].
  - change (is_digit ".") with false. cbn. apply (strtod_frac_digits r v 0 R).
  - inversion H; subst. rewrite H2. rewrite IH by assumption. reflexivity.
Qed.
Lemma digits_numeric : forall l, all_digits l -> Forall (fun c => numeric c = true) l.
Proof. intros l H. eapply Forall_impl; [|exact H]. intros c E. unfold numeric. rewrite E. reflexivity. Qed.
Lemma number_digits : forall l r, all_digits l -> (length l < 2048)%nat -> match r with c :: _ => numeric c = false | [] => True end ->
  number (l ++ r) = Ok (mkDec (dval l 0) 0, r).
Proof.
  intros l r A L R. unfold number. rewrite (span_app numeric l r (digits_numeric l A) R). apply Nat.ltb_lt in L. rewrite L. unfold strtod.
  rewrite strtod_int_digits by exact A. reflexivity.
Qed.
Lemma number_point : forall l m, all_digits l -> all_digits m -> (length (l ++ "."%char :: m) < 2048)%nat ->
  number (l ++ "."%char :: m) = Ok (mkDec (dval m (dval l 0)) (length m), []).
Proof.
  intros l m A B L. unfold number. rewrite <- (app_nil_r (l ++ "."%char :: m)).
  rewrite (span_app numeric (l ++ "."%char :: m) []); [| |exact I].
  - apply Nat.ltb_lt in L. rewrite L. unfold strtod. rewrite strtod_point by assumption. reflexivity.
  - apply Forall_app. split; [apply digits_numeric; exact A|]. constructor; [reflexivity|apply digits_numeric; exact B].
Qed.
Lemma starts_app : forall l r, all_digits l -> l <> [] -> starts_number (l ++ r) = true.
Proof. intros [|c l] r A N; [contradiction|]. inversion A; subst. cbn. unfold numeric. rewrite H1. reflexivity. Qed.
(** characters that are no switch *)
Definition inert (c : ascii) : Prop := forall s b, switch c s b = Ok (b, s).
Lemma digit_cases : forall c, is_digit c = true -> exists k, (k < 10)%nat /\ c = ascii_of_nat (48 + k).
Proof.
  intros c H. unfold is_digit in H. apply andb_true_iff in H. destruct H as [A B]. apply Nat.leb_le in A. apply Nat.leb_le in B.
  exists (nat_of_ascii c - 48)%nat. split; [lia|]. replace (48 + (nat_of_ascii c - 48))%nat with (nat_of_ascii c) by lia.
  symmetry. apply ascii_nat_embedding.
Qed.
Lemma digit_inert : forall c, is_digit c = true -> inert c.
Proof. intros c H. destruct (digit_cases c H) as [k [K ->]]. do 10 (destruct k as [|k]; [intros s b; reflexivity|]). lia. Qed.
Lemma parse_inert : forall l f r b, Forall inert l -> parse (length l + f) (l ++ r) b = parse f r b.
Proof. induction l as [|c l IH]; intros f r b H; [reflexivity|]. inversion H; subst. cbn [length Nat.add app parse]. rewrite H2. apply IH. assumption. Qed.
Lemma parse_nil : forall f b, parse f [] b = Ok b.
Proof. destruct f; reflexivity. Qed.

(** ** the string as a whole *)
Lemma rounds_unique : forall x n n', rounds_to x n -> rounds_to x n' -> n = n'.
Proof.
  intros x n n' [A1 A2] [B1 B2]. destruct (Z.eq_dec n n') as [E|E]; [exact E|exfalso].
  assert (A : (- / 2 <= IZR n - x * 10 ^ 17 <= / 2)%R) by (unfold Rabs in A1; destruct (Rcase_abs _); lra).
  assert (B : (- / 2 <= IZR n' - x * 10 ^ 17 <= / 2)%R) by (unfold Rabs in B1; destruct (Rcase_abs _); lra).
  assert (D : n = n' + 1 \/ n' = n + 1).
  { assert (n <= n' + 1) by (apply le_IZR; rewrite plus_IZR; lra). assert (n' <= n + 1) by (apply le_IZR; rewrite plus_IZR; lra). lia. }
  assert (Ea : Z.even n = true /\ Z.even n' = true).
  { destruct D as [->| ->]; rewrite plus_IZR in *; split; [apply A2|apply B2|apply A2|apply B2]; unfold Rabs; destruct (Rcase_abs _); lra. }
  destruct Ea as [E1 E2]. destruct D as [->| ->]; rewrite Z.even_add in *; [rewrite E2 in E1|rewrite E1 in E2]; discriminate.
Qed.
Lemma scaled_is : forall m e n, rounds_to (area_of m e) n -> scaled (Z.pos m) e = n.
Proof. intros m e n H. apply (rounds_unique (area_of m e)); [apply scaled_spec|exact H]. Qed.
Lemma rounds_nonneg : forall m e n, rounds_to (area_of m e) n -> 0 <= n.
Proof. intros m e n H. rewrite <- (scaled_is m e n H). apply scaled_spec. Qed.

Definition width (angle : Z) (i : nat) : nat := if Z.ltb angle 0 then S i else i.
Lemma print_int_length : forall angle i, has_digits (Z.abs angle) i -> length (print_int angle) = width angle i.
Proof.
  intros angle i H. unfold print_int, width. destruct (Z.ltb_spec angle 0) as [L|L].
  - cbn [length]. f_equal. rewrite Z.abs_neq in H by lia. apply (proj1 (proj2 (proj2 (digits_spec (- angle) ltac:(lia))))). exact H.
  - rewrite Z.abs_eq in H by lia. apply (proj1 (proj2 (proj2 (digits_spec angle L)))). exact H.
Qed.
Lemma print_units_length : forall n j, 0 <= n -> has_digits (n / 10 ^ 17) j -> length (print_units n) = (j + 18)%nat.
Proof.
  intros n j N H. unfold print_units. rewrite app_length. cbn [length]. destruct (padded_spec 17 n [] N ltac:(constructor)) as [_ [_ ->]].
  destruct (digits_spec (n / 10 ^ 17)) as [_ [_ [L _]]]; [apply Z.div_pos; lia|]. rewrite (L j H). cbn. lia.
Qed.
Definition text (angle : Z) (area : spec_float) : list ascii :=
  ["p"; "z"; "q"]%char ++ print_int angle ++ ["A"; "Q"; "a"]%char ++ print_double area.
Lemma text_length : forall angle area, length (text angle area) = (6 + (length (print_int angle) + length (print_double area)))%nat.
Proof. intros. unfold text. rewrite !app_length. cbn [length]. lia. Qed.
Lemma switches_fit : forall angle area, (length (print_int angle) + length (print_double area) <= 35)%nat -> switches angle area = Ok (text angle area).
Proof. intros angle area H. unfold switches. fold (text angle area). destruct (Nat.leb_spec (S (length (text angle area))) 42) as [L|L]; [reflexivity|]. rewrite text_length in L. lia. Qed.
Lemma switches_long : forall angle area, (35 < length (print_int angle) + length (print_double area))%nat -> is_ub (switches angle area).
Proof. intros angle area H. unfold switches. fold (text angle area). destruct (Nat.leb_spec (S (length (text angle area))) 42) as [L|L]; [rewrite text_length in L; lia|eexists; reflexivity]. Qed.

(** before the last switch *)
Definition before (x : dec) : behavior := put quiet 1 (put regionattrib 1
  (mkB (b_opt (put quality 1 (put firstnumber 0 (put poly 1 start)))) x (mkDec (-1) 0))).
Lemma parse_pos : forall angle D, 0 <= angle -> (length (print_int angle) < 2048)%nat ->
  parse (6 + (length (print_int angle) + length D)) (["p"; "z"; "q"]%char ++ print_int angle ++ ["A"; "Q"; "a"]%char ++ D) start =
  parse (S (length (print_int angle) + length D)) ("a"%char :: D) (before (mkDec angle 0)).
Proof.
  intros angle D H L. unfold print_int in *. destruct (Z.ltb_spec angle 0) as [N|N]; [lia|]. destruct (digits_spec angle H) as [A [V [_ NE]]].
  cbn [app]. set (r := "A"%char :: "Q"%char :: "a"%char :: D). set (k := (length (digits angle) + length D)%nat).
  cbn [Nat.add parse switch bind]. rewrite (starts_app _ r A NE). rewrite (number_digits (digits angle) r A L) by reflexivity.
  cbn [bind]. rewrite V. subst r. cbn [parse switch bind]. reflexivity.
Qed.
Lemma inert_dash : inert "-"%char. Proof. intros s b. reflexivity. Qed.
Lemma inert_point : inert "."%char. Proof. intros s b. reflexivity. Qed.
Lemma inert_digits : forall l, all_digits l -> Forall inert l.
Proof. intros l H. eapply Forall_impl; [|exact H]. exact digit_inert. Qed.
Lemma parse_neg : forall angle D, angle < 0 ->
  parse (6 + (length (print_int angle) + length D)) (["p"; "z"; "q"]%char ++ print_int angle ++ ["A"; "Q"; "a"]%char ++ D) start =
  parse (S (length D)) ("a"%char :: D) (before (mkDec 20 0)).
Proof.
  intros angle D H. unfold print_int in *. destruct (Z.ltb_spec angle 0) as [N|N]; [|lia]. destruct (digits_spec (- angle) ltac:(lia)) as [A [_ [_ NE]]].
  set (P := "-"%char :: digits (- angle)). set (r := ["A"; "Q"; "a"]%char ++ D).
  replace (6 + (length P + length D))%nat with (3 + (length P + (3 + length D)))%nat by lia.
  change (["p"; "z"; "q"]%char ++ P ++ r) with ("p"%char :: "z"%char :: "q"%char :: P ++ r).
  transitivity (parse (length P + (3 + length D)) (P ++ r)
    (mkB (b_opt (put quality 1 (put firstnumber 0 (put poly 1 start)))) (mkDec 20 0) (mkDec (-1) 0))); [reflexivity|].
  rewrite parse_inert; [|constructor; [exact inert_dash|apply inert_digits; exact A]]. reflexivity.
Qed.

(** ** the last switch *)
Definition limited (x y : dec) : behavior := let b := put fixedarea 1 (put quality 1 (before x)) in mkB (b_opt b) (b_minangle b) y.
Lemma units_read : forall n, 0 <= n -> all_digits (digits (n / 10 ^ 17)) /\ all_digits (padded 17 n []) /\ length (padded 17 n []) = 17%nat /\
  dval (padded 17 n []) (dval (digits (n / 10 ^ 17)) 0) = n.
Proof.
  intros n N. destruct (padded_spec 17 n [] N ltac:(constructor)) as [A [B C]]. destruct (digits_spec (n / 10 ^ 17)) as [D [E _]]; [apply Z.div_pos; lia|].
  split; [exact D|]. split; [exact A|]. split; [exact C|]. rewrite E, B. cbn [dval fold_left]. change (Z.of_nat 17) with 17.
  rewrite (Z.div_mod n (10 ^ 17)) at 3 by lia. lia.
Qed.
Lemma last_units : forall f x n, 0 <= n -> (length (print_units n) < 2048)%nat -> parse (S f) ("a"%char :: print_units n) (before x) =
  if Z.leb n 0 then UB "triexit: Maximum area must be greater than zero" else Ok (limited x (mkDec n 17)).
Proof.
  intros f x n N L. destruct (units_read n N) as [A [B [C D]]]. destruct (digits_spec (n / 10 ^ 17)) as [_ [_ [_ NE]]]; [apply Z.div_pos; lia|].
  cbn [parse switch]. unfold print_units in *. rewrite (starts_app _ _ A NE). rewrite (number_point _ _ A B L). rewrite C, D. cbn [bind d_val].
  destruct (Z.leb n 0); [reflexivity|]. cbn [bind]. apply parse_nil.
Qed.
Definition free (x : dec) : behavior := put vararea 1 (put quality 1 (before x)).
Lemma last_minus : forall f x n, 0 <= n -> (length (print_units n) < f)%nat -> parse (S f) ("a"%char :: "-"%char :: print_units n) (before x) = Ok (free x).
Proof.
  intros f x n N L. destruct (units_read n N) as [A [B _]].
  transitivity (parse f ("-"%char :: print_units n) (free x)); [reflexivity|].
  rewrite <- (app_nil_r ("-"%char :: print_units n)).
  replace f with (length ("-"%char :: print_units n) + (f - S (length (print_units n))))%nat by (cbn [length]; lia).
  rewrite parse_inert; [apply parse_nil|]. constructor; [exact inert_dash|]. unfold print_units. apply Forall_app. split; [apply inert_digits; exact A|].
  constructor; [exact inert_point|apply inert_digits; exact B].
Qed.

(** ** the options *)
Lemma limited_expected : forall x y f, b_opt (finish (limited x y)) f = expected f.
Proof. intros x y f. destruct f; reflexivity. Qed.
Lemma limited_numbers : forall x y, b_minangle (finish (limited x y)) = x /\ b_maxarea (finish (limited x y)) = y.
Proof. split; reflexivity. Qed.
Lemma free_expected : forall x f, b_opt (finish (free x)) f = unlimited f.
Proof. intros x f. destruct f; reflexivity. Qed.
Lemma free_numbers : forall x, b_minangle (finish (free x)) = x /\ b_maxarea (finish (free x)) = mkDec (-1) 0.
Proof. split; reflexivity. Qed.
(** the angle Triangle uses *)
Definition angle_used (angle : Z) : Z := if Z.ltb angle 0 then 20 else angle.
Lemma parse_any : forall angle D, (length (print_int angle) < 2048)%nat -> exists f, (length D <= f)%nat /\
  parse (6 + (length (print_int angle) + length D)) (["p"; "z"; "q"]%char ++ print_int angle ++ ["A"; "Q"; "a"]%char ++ D) start =
  parse (S f) ("a"%char :: D) (before (mkDec (angle_used angle) 0)).
Proof.
  intros angle D L. unfold angle_used. destruct (Z.ltb_spec angle 0) as [N|N].
  - exists (length D). split; [lia|]. apply parse_neg. exact N.
  - exists (length (print_int angle) + length D)%nat. split; [lia|]. apply parse_pos; assumption.
Qed.
Lemma options_parse : forall angle area, (length (print_int angle) + length (print_double area) <= 35)%nat -> exists f, (length (print_double area) <= f)%nat /\
  mesher_options angle area = (b <- parse (S f) ("a"%char :: print_double area) (before (mkDec (angle_used angle) 0)) ;; Ok (finish b)).
Proof.
  intros angle area H. destruct (parse_any angle (print_double area) ltac:(lia)) as [f [F E]]. exists f. split; [exact F|].
  unfold mesher_options. rewrite (switches_fit _ _ H). cbn [bind]. unfold parsecommandline. rewrite text_length. unfold text. rewrite E. reflexivity.
Qed.
Theorem options_finite : forall angle m e n i j, rounds_to (area_of m e) n -> has_digits (Z.abs angle) i -> has_digits (n / 10 ^ 17) j ->
  (width angle i + j <= 17)%nat -> mesher_options angle (S754_finite false m e) =
  if Z.leb n 0 then UB "triexit: Maximum area must be greater than zero" else Ok (finish (limited (mkDec (angle_used angle) 0) (mkDec n 17))).
Proof.
  intros angle m e n i j R I J W. pose proof (rounds_nonneg m e n R) as N.
  assert (P : print_double (S754_finite false m e) = print_units n) by (cbn [print_double sign app]; rewrite (scaled_is m e n R); reflexivity).
  pose proof (print_int_length angle i I) as L1. pose proof (print_units_length n j N J) as L2.
  destruct (options_parse angle (S754_finite false m e)) as [f [F E]]; [rewrite P; lia|]. rewrite E, P, last_units by lia.
  destruct (Z.leb n 0); reflexivity.
Qed.
Theorem options_negative : forall angle m e n i j, rounds_to (area_of m e) n -> has_digits (Z.abs angle) i -> has_digits (n / 10 ^ 17) j ->
  (width angle i + j <= 16)%nat -> mesher_options angle (S754_finite true m e) = Ok (finish (free (mkDec (angle_used angle) 0))).
Proof.
  intros angle m e n i j R I J W. pose proof (rounds_nonneg m e n R) as N.
  assert (P : print_double (S754_finite true m e) = "-"%char :: print_units n) by (cbn [print_double sign app]; rewrite (scaled_is m e n R); reflexivity).
  pose proof (print_int_length angle i I) as L1. pose proof (print_units_length n j N J) as L2.
  destruct (options_parse angle (S754_finite true m e)) as [f [F E]]; [rewrite P; cbn [length]; lia|]. rewrite E, P. rewrite P in F. cbn [length] in F.
  rewrite last_minus by lia. reflexivity.
Qed.
Theorem options_long : forall angle (s : bool) m e n i j, rounds_to (area_of m e) n -> has_digits (Z.abs angle) i -> has_digits (n / 10 ^ 17) j ->
  (17 < width angle i + j + (if s then 1 else 0))%nat -> is_ub (mesher_options angle (S754_finite s m e)).
Proof.
  intros angle s m e n i j R I J W. pose proof (rounds_nonneg m e n R) as N. pose proof (print_int_length angle i I) as L1.
  pose proof (print_units_length n j N J) as L2.
  destruct (switches_long angle (S754_finite s m e)) as [t E].
  - cbn [print_double]. rewrite (scaled_is m e n R), app_length, L1, L2. destruct s; cbn [sign length]; lia.
  - exists t. unfold mesher_options. rewrite E. reflexivity.
Qed.
