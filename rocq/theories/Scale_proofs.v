(** The product of an expansion and a number. *)
From Coq Require Import String.
From Coq Require Import List Arith ZArith NArith Bool Lia Reals Lra Psatz.
From Coq Require Import Floats.SpecFloat.
From Flocq Require Import Core BinarySingleNaN Relative Plus_error.
From Verif Require Import Base GeometryModel GeometrySpec FloatSpec Float_proofs FloatBound_proofs RoundSpec Round_proofs RoundUse_proofs PredicateModel PredicateSpec Predicate_proofs ExpansionModel ExpansionSpec Expansion_proofs ExpansionR_proofs StageB_proofs ScaleModel.
Import ListNotations.
Local Open Scope R_scope.
Local Notation prec := 53%Z.
Local Notation emax := 1024%Z.
#[local] Existing Instance Round_proofs.Hprec.
#[local] Existing Instance Round_proofs.Hmax.
Local Notation ch := (fun n => negb (Z.even n)).
Local Notation rn := (round radix2 (FLT_exp (-1074) 53) (Znearest ch)).

Section Pure.
Variable o : Ops.
Variables spl b : T o.
Fixpoint scaled (q : T o) (h l : list (T o)) : T o * list (T o) :=
  match l with
  | [] => (q, h)
  | x :: l' => let p := two_product o spl x b in let s := two_sum o q (snd p) in let f := fast_two_sum o (fst p) (fst s) in scaled (fst f) (keep o (keep o h (snd s)) (snd f)) l'
  end.
Definition pure_scale (e : list (T o)) : list (T o) :=
  match e with [] => [] | x :: l => let p := two_product o spl x b in finish o (scaled (fst p) (keep o [] (snd p)) l) end.
Lemma presplit : forall a, two_product_presplit o spl a b (fst (split o spl b)) (snd (split o spl b)) = two_product o spl a b.
Proof. intros a. unfold two_product_presplit, two_product. destruct (split o spl a). destruct (split o spl b). reflexivity. Qed.
Lemma scaled_length : forall l q h, (length (snd (scaled q h l)) <= length h + 2 * length l)%nat.
Proof.
  induction l as [|x l IH]; intros q h; cbn [scaled length snd]; [lia|]. cbv zeta. eapply Nat.le_trans; [apply IH|].
  pose proof (keep_length o h (snd (two_sum o q (snd (two_product o spl x b))))). pose proof (keep_length o (keep o h (snd (two_sum o q (snd (two_product o spl x b))))) (snd (fast_two_sum o (fst (two_product o spl x b)) (fst (two_sum o q (snd (two_product o spl x b))))))). lia.
Qed.
Lemma scale_loop : forall cap j l pre q h, (length h + 2 * length l <= cap)%nat ->
  forM_from (length l) (length pre) (fun i s => enow <- get (pre ++ l ++ j) i ;; scale_step o spl b (fst (split o spl b)) (snd (split o spl b)) cap enow s) (q, h) = Ok (scaled q h l).
Proof.
  intros cap j l. induction l as [|x l IH]; intros pre q h C; cbn [length forM_from scaled]; [reflexivity|].
  assert (G : get (pre ++ (x :: l) ++ j) (length pre) = Ok x) by (unfold get; rewrite nth_error_app2 by lia; rewrite Nat.sub_diag; reflexivity).
  rewrite G. cbn [bind]. unfold scale_step at 1. rewrite presplit. destruct (two_product o spl x b) as [p1 p0]. cbn [fst snd]. destruct (two_sum o q p0) as [s hh]. cbn [fst snd] in *. cbn [length] in C.
  rewrite store_keep by lia. cbn [bind]. pose proof (keep_length o h hh). destruct (fast_two_sum o p1 s) as [f hh']. cbn [fst snd]. rewrite store_keep by lia. cbn [bind]. pose proof (keep_length o (keep o h hh) hh').
  specialize (IH (pre ++ [x]) f (keep o (keep o h hh) hh')). rewrite app_length in IH. cbn [length] in IH. rewrite Nat.add_1_r in IH. rewrite <- app_assoc in IH. cbn [app] in IH. apply IH. lia.
Qed.
Lemma scale_pure : forall e j cap, e <> [] -> (2 * length e <= cap)%nat -> scale_expansion o spl (length e) (e ++ j) b cap = Ok (pure_scale e) /\ (1 <= length (pure_scale e) <= 2 * length e)%nat.
Proof.
  intros [|x l] j cap NE C; [congruence|]. unfold scale_expansion, pure_scale. pose proof (presplit x) as PX. pose proof (fun q h => scale_loop cap j l [x] q h) as SL.
  destruct (split o spl b) as [bhi blo]. cbn [fst snd] in *. cbn [get app nth_error bind]. rewrite PX. destruct (two_product o spl x b) as [q hh]. cbn [fst snd length] in *.
  rewrite store_keep by (cbn [length]; lia). cbn [bind]. pose proof (keep_length o [] hh) as K. cbn [length] in K. unfold forM_range. replace (S (length l) - 1)%nat with (length l) by lia.
  cbn [app] in SL. rewrite SL by lia. cbn [bind]. pose proof (scaled_length l q (keep o [] hh)) as SN. destruct (scaled q (keep o [] hh) l) as [q' h']. unfold finish. cbn [fst snd] in *.
  destruct (negb (eqb o q' (zero o)) || Nat.eqb (length h') 0) eqn:F.
  - unfold store. assert (Q : (length h' <? cap)%nat = true) by (apply Nat.ltb_lt; lia). rewrite Q. split; [reflexivity|]. rewrite app_length. cbn [length]. lia.
  - split; [reflexivity|]. apply orb_false_iff in F. destruct F as [_ F]. apply Nat.eqb_neq in F. lia.
Qed.
End Pure.

(** *** exactness *)
Lemma scaled_fin : forall spl b l q h, finite (fst (scaled FOps spl b q h l)) -> Forall finite (snd (scaled FOps spl b q h l)) -> finite q /\ Forall finite h.
Proof.
  intros spl b l. induction l as [|x l IH]; intros q h F G; [auto|]. cbn [scaled] in F, G. cbv zeta in F, G. destruct (IH _ _ F G) as [_ K]. apply keep_spec in K. destruct K as [_ K]. apply keep_spec in K. destruct K as [K1 K2].
  apply two_sum_fin in K1. tauto.
Qed.
Lemma fast_value : forall a b, double a -> double b -> finite (snd (fast_two_sum FOps a b)) -> value (fst (fast_two_sum FOps a b)) = rn (value a + value b).
Proof. intros a b DA DB F. apply fast_fin in F. destruct F as [F _]. exact (proj2 (add_rn a b DA DB F)). Qed.
Lemma scale_core : forall B M X q p1 p0 s f e1 e2, 0 <= B -> 0 <= M -> Rabs q <= 3 / 2 * (B * M) -> 4 * (B * M) <= X -> Rabs (p1 + p0) = X -> Rabs p0 <= u * Rabs p1 ->
  Rabs e1 <= u -> q + p0 = s * (1 + e1) -> Rabs e2 <= u -> p1 + s = f * (1 + e2) -> Rabs s <= Rabs p1 /\ Rabs f <= 3 / 2 * X.
Proof.
  intros B M X q p1 p0 s f e1 e2 HB HM HQ HX E P H1 E1 H2 E2.
  assert (W : forall a e, Rabs e <= u -> Rabs (a * e) <= u * Rabs a) by (intros a e He; rewrite Rabs_mult, (Rmult_comm u); apply Rmult_le_compat_l; [apply Rabs_pos|exact He]).
  pose proof (W s e1 H1) as W1. pose proof (W f e2 H2) as W2. pose proof (tri3 s q p0 (- (s * e1)) ltac:(lra)) as T1. pose proof (tri3 f p1 s (- (f * e2)) ltac:(lra)) as T2. rewrite !Rabs_Ropp in *.
  pose proof (tri2 p1 (p1 + p0) (- p0) ltac:(ring)) as T3. rewrite Rabs_Ropp in T3. pose proof (tri2 (p1 + p0) p1 p0 eq_refl) as T4. rewrite E in T3, T4. pose proof (Rmult_le_pos _ _ HB HM) as BM.
  set (bm := B * M) in *. clearbody bm. clear - HQ HX P W1 W2 T1 T2 T3 T4 BM. rewrite u_num in *. split; lra.
Qed.
Lemma scaled_total : forall spl b, double spl -> value spl = powerRZ 2 27 + 1 -> double b -> forall l q h M, double q -> Forall double h -> Forall double l ->
  Forall (fun x => value x * value b = 0 \/ powerRZ 2 (-969) <= Rabs (value x * value b)) l ->
  0 <= M -> Rabs (value q) <= 3 / 2 * (Rabs (value b) * M) -> Forall (fun x => value x = 0 \/ 4 * M <= Rabs (value x)) l -> ForallOrdPairs (fun x y => value y = 0 \/ 4 * Rabs (value x) <= Rabs (value y)) l ->
  finite (fst (scaled FOps spl b q h l)) -> Forall finite (snd (scaled FOps spl b q h l)) ->
  double (fst (scaled FOps spl b q h l)) /\ Forall double (snd (scaled FOps spl b q h l)) /\
  value (fst (scaled FOps spl b q h l)) + total (snd (scaled FOps spl b q h l)) = value q + total h + total l * value b.
Proof.
  intros spl b DS VS DB l. induction l as [|x l IH]; intros q h M DQ DH DL UL HM HQ FM OP F G.
  - cbn [scaled fst snd total] in *. split; auto. split; auto. ring.
  - cbn [scaled total] in *. cbv zeta in *. destruct (scaled_fin _ _ _ _ _ F G) as [Ff K]. apply keep_spec in K. destruct K as [Fh K]. apply keep_spec in K. destruct K as [Fs _].
    pose proof (Forall_inv DL) as DX. pose proof (Forall_inv_tail DL) as DL'. pose proof (Forall_inv UL) as UX. pose proof (Forall_inv_tail UL) as UL'. cbv beta in UX. inversion OP as [|x' l' OX OL]; subst x' l'. clear DL UL OP.
    pose proof (Forall_inv FM) as MX. pose proof (Forall_inv_tail FM) as ML. cbv beta in MX. clear FM.
    destruct (two_sum_fin _ _ Fs) as [_ [_ Fp]]. destruct (product_exact spl x b DS VS DX DB Fp UX) as [D1 [D0 [V1 S1]]].
    assert (P0 : Rabs (value (snd (two_product FOps spl x b))) <= u * Rabs (value (fst (two_product FOps spl x b)))) by (rewrite V1; apply mul_back; [exact UX|]; rewrite <- V1; exact S1).
    destruct (two_product FOps spl x b) as [p1 p0]. cbn [fst snd] in *.
    destruct (two_sum_exact q p0 DQ D0 Fs) as [D2 [D3 [V2 S2]]]. destruct (rn_plus (value q) (value p0) (value_fmt _ DQ) (value_fmt _ D0)) as [e1 [H1 E1]]. rewrite <- V2 in E1.
    destruct (two_sum FOps q p0) as [s hh]. cbn [fst snd] in *.
    pose proof (fast_value p1 s D1 D2 Fh) as V3. destruct (rn_plus (value p1) (value s) (value_fmt _ D1) (value_fmt _ D2)) as [e2 [H2 E2]]. rewrite <- V3 in E2.
    assert (C : (value p1 = 0 \/ Rabs (value s) <= Rabs (value p1)) /\ exists M', 0 <= M' /\ Rabs (value (fst (fast_two_sum FOps p1 s))) <= 3 / 2 * (Rabs (value b) * M') /\ Forall (fun x => value x = 0 \/ 4 * M' <= Rabs (value x)) l).
    { destruct MX as [Z|MX].
      - assert (Z1 : value p1 = 0) by (rewrite V1, Z, Rmult_0_l; apply rn_0). split; [left; exact Z1|]. exists M. split; [exact HM|]. split; [|exact ML].
        assert (Z0 : value p0 = 0) by (rewrite Z, Z1 in S1; lra). rewrite V3, Z1, Rplus_0_l, (rn_id _ (value_fmt _ D2)), V2, Z0, Rplus_0_r, (rn_id _ (value_fmt _ DQ)). exact HQ.
      - destruct (scale_core (Rabs (value b)) M (Rabs (value x * value b)) (value q) (value p1) (value p0) (value s) (value (fst (fast_two_sum FOps p1 s))) e1 e2) as [C1 C2]; auto; [apply Rabs_pos| |rewrite S1; reflexivity|].
        { rewrite Rabs_mult. replace (4 * (Rabs (value b) * M)) with (4 * M * Rabs (value b)) by ring. apply Rmult_le_compat_r; [apply Rabs_pos|exact MX]. }
        split; [right; exact C1|]. destruct (Req_dec (value x) 0) as [Z|NZ].
        + exists M. split; [exact HM|]. split; [|exact ML]. eapply Rle_trans; [exact C2|]. rewrite Z, Rmult_0_l, Rabs_R0. pose proof (Rmult_le_pos _ _ (Rabs_pos (value b)) HM). lra.
        + exists (Rabs (value x)). split; [apply Rabs_pos|]. split; [|exact OX]. rewrite Rmult_comm in C2. rewrite (Rmult_comm (Rabs (value b))), <- Rabs_mult. lra. }
    destruct C as [C [M' [HM' [HF FM']]]]. destruct (fast_exact p1 s D1 D2 C Fh) as [D4 [D5 S3]]. destruct (fast_two_sum FOps p1 s) as [f hh']. cbn [fst snd] in *.
    destruct (keep_total h hh D3 DH) as [K1 T1]. destruct (keep_total _ hh' D5 K1) as [K2 T2].
    destruct (IH f _ M' D4 K2 DL' UL' HM' HF FM' OL F G) as [I1 [I2 I3]]. split; [exact I1|]. split; [exact I2|]. rewrite I3, T2, T1. lra.
Qed.
Lemma scale_total : forall spl b, double spl -> value spl = powerRZ 2 27 + 1 -> double b -> forall e, Forall double e ->
  Forall (fun x => value x * value b = 0 \/ powerRZ 2 (-969) <= Rabs (value x * value b)) e -> ForallOrdPairs (fun x y => value y = 0 \/ 4 * Rabs (value x) <= Rabs (value y)) e ->
  Forall finite (pure_scale FOps spl b e) -> Forall double (pure_scale FOps spl b e) /\ total (pure_scale FOps spl b e) = total e * value b.
Proof.
  intros spl b DS VS DB [|x l] DE UE OE F; [split; [constructor|cbn [pure_scale total]; ring]|]. unfold pure_scale in *. cbv zeta in *. apply finish_spec in F. destruct F as [F G].
  pose proof (Forall_inv DE) as DX. pose proof (Forall_inv_tail DE) as DL. pose proof (Forall_inv UE) as UX. pose proof (Forall_inv_tail UE) as UL. cbv beta in UX. inversion OE as [|x' l' OX OL]; subst x' l'.
  destruct (scaled_fin _ _ _ _ _ F G) as [_ K]. apply keep_spec in K. destruct K as [Fp _]. destruct (product_exact spl x b DS VS DX DB Fp UX) as [D1 [D0 [V1 S1]]].
  assert (P0 : Rabs (value (snd (two_product FOps spl x b))) <= u * Rabs (value (fst (two_product FOps spl x b)))) by (rewrite V1; apply mul_back; [exact UX|]; rewrite <- V1; exact S1).
  destruct (two_product FOps spl x b) as [q hh]. cbn [fst snd] in *. destruct (keep_total [] hh D0 (Forall_nil _)) as [K1 T1].
  assert (HQ : Rabs (value q) <= 3 / 2 * (Rabs (value b) * Rabs (value x))).
  { rewrite (Rmult_comm (Rabs (value b))), <- Rabs_mult, <- S1. pose proof (tri2 (value q) (value q + value hh) (- value hh) ltac:(ring)) as T3. rewrite Rabs_Ropp in T3. clear - T3 P0. pose proof (Rabs_pos (value q)). rewrite u_num in *. lra. }
  destruct (scaled_total spl b DS VS DB l q (keep FOps [] hh) (Rabs (value x)) D1 K1 DL UL (Rabs_pos _) HQ OX OL F G) as [I1 [I2 I3]].
  destruct (finish_total _ I1 I2) as [J1 J2]. split; [exact J1|]. refine (eq_trans J2 (eq_trans I3 _)). refine (eq_trans (f_equal (fun t => value q + t + total l * value b) T1) _). cbn [total]. rewrite (Rmult_plus_distr_r (value x)). rewrite <- S1. ring.
Qed.
