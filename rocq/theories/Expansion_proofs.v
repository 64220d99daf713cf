(** The sum of two expansions reads one component too many of each, and what it reads there has no effect. *)
From Coq Require Import String.
From Coq Require Import List Arith ZArith Bool Lia.
From Verif Require Import Base GeometryModel PredicateModel ExpansionModel.
Import ListNotations.

Section Structure.
Variable o : Ops.
Notation T := (T o).
Local Notation local := (local o).

(** *** arrays of exactly the stated lengths *)
Definition fine {A} (P : A -> Prop) (r : res A) : Prop := match r with Ok a => P a | UB _ => True | _ => False end.
Lemma fine_bind : forall {A B} (P : A -> Prop) (R : B -> Prop) r (k : A -> res B), fine P r -> (forall a, P a -> fine R (k a)) -> fine R (bind r k).
Proof. intros A B P R [a|s|s|s] k H K; cbn in *; auto; contradiction. Qed.
Lemma fine_get : forall {A} (l : list A) i, fine (fun _ => i < length l) (get l i).
Proof. intros A l i. unfold get. destruct (nth_error l i) eqn:E; cbn; auto. apply nth_error_Some. congruence. Qed.
Lemma fine_store_nz : forall cap h x, fine (fun _ => True) (store_nz o cap h x).
Proof. intros. unfold store_nz, store. destruct (eqb o x (zero o)); [exact I|]. destruct (length h <? cap); exact I. Qed.

Section Exact.
Variables (e f : list T) (cap : nat).
Definition inv (s : local) : Prop := eindex o s < length e /\ findex o s < length f.
Definition next (s s' : local) : Prop := inv s' /\ eindex o s' + findex o s' = S (eindex o s + findex o s).
Lemma eat_e_fine : forall sum s, inv s -> fine (next s) (eat_e o sum cap e s).
Proof.
  intros sum s [H1 H2]. unfold eat_e. destruct (sum (Q o s) (enow o s)) as [q hh]. eapply fine_bind; [apply fine_get|]. intros a Ha. cbn beta in Ha.
  eapply fine_bind; [apply fine_store_nz|]. intros h _. cbn. split; [split; cbn; auto|cbn; lia].
Qed.
Lemma eat_f_fine : forall sum s, inv s -> fine (next s) (eat_f o sum cap f s).
Proof.
  intros sum s [H1 H2]. unfold eat_f. destruct (sum (Q o s) (fnow o s)) as [q hh]. eapply fine_bind; [apply fine_get|]. intros a Ha. cbn beta in Ha.
  eapply fine_bind; [apply fine_store_nz|]. intros h _. cbn. split; [split; cbn; auto|cbn; lia].
Qed.
Lemma eat_fine : forall sum s, inv s -> fine (next s) (eat o sum cap e f s).
Proof. intros. unfold eat. destruct (take_e _ _ _); [apply eat_e_fine|apply eat_f_fine]; auto. Qed.
Lemma while_fine : forall cond body, (forall s, inv s -> fine (next s) (body s)) ->
  forall fuel s, inv s -> length e + length f <= fuel + (eindex o s + findex o s) -> fine (fun s' => inv s' /\ cond s' = false) (while o fuel cond body s).
Proof.
  intros cond body HB. induction fuel as [|fuel IH]; intros s I F; cbn [while]; destruct (cond s) eqn:C; try (cbn; auto; fail).
  - exfalso. destruct I. lia.
  - eapply fine_bind; [apply HB; exact I|]. intros s' [I' N]. apply IH; auto. rewrite N. lia.
Qed.
Theorem reads_past_the_end : is_ub (fast_expansion_sum o (length e) e (length f) f cap).
Proof.
  assert (G : fine (fun _ => False) (fast_expansion_sum o (length e) e (length f) f cap)).
  { unfold fast_expansion_sum. eapply fine_bind; [apply fine_get|]. intros e0 E0. eapply fine_bind; [apply fine_get|]. intros f0 F0. cbn beta in E0, F0.
    eapply (fine_bind inv). { destruct (take_e o e0 f0); (eapply fine_bind; [apply fine_get|]); intros x X; cbn in *; split; cbn; auto. }
    intros s I. cbv zeta. eapply (fine_bind inv).
    { destruct (_ && _); [|cbn; auto]. eapply fine_bind; [apply eat_fine; exact I|]. intros s1 [I1 _]. 
      generalize (while_fine (fun s => (eindex o s <? length e) && (findex o s <? length f)) _ (eat_fine (two_sum o)) (length e + length f) s1 I1).
      intros W. specialize (W ltac:(lia)). destruct (while _ _ _ _ _); cbn in *; tauto. }
    intros s1 I1. eapply fine_bind.
    { apply (while_fine (fun s => eindex o s <? length e) _ (eat_e_fine (two_sum o)) (length e + length f) s1 I1). lia. }
    intros s2 [[I2 _] C]. cbn beta in C. apply Nat.ltb_ge in C. lia. }
  unfold is_ub. destruct (fast_expansion_sum _ _ _ _ _ _); cbn in G; try contradiction. eauto.
Qed.
End Exact.

(** *** with at least one more readable component in each array *)
Definition keep (h : list T) (y : T) : list T := if eqb o y (zero o) then h else h ++ [y].
Fixpoint absorb (q : T) (h : list T) (l : list T) : T * list T :=
  match l with [] => (q, h) | x :: l' => absorb (fst (two_sum o q x)) (keep h (snd (two_sum o q x))) l' end.
Fixpoint merged (n : nat) (es fs : list T) : list T :=
  match n with
  | O => es ++ fs
  | S n' => match es, fs with
    | x :: es', y :: fs' => if take_e o x y then x :: merged n' es' fs else y :: merged n' es fs'
    | _, _ => es ++ fs
    end
  end.
Definition finish (r : T * list T) : list T := if negb (eqb o (fst r) (zero o)) || Nat.eqb (length (snd r)) 0 then snd r ++ [fst r] else snd r.
Definition first_of (x y : T) (es fs : list T) : T * list T * list T := if take_e o x y then (x, es, y :: fs) else (y, x :: es, fs).
Definition pure_sum (es fs : list T) : list T :=
  match es, fs with
  | x :: es', y :: fs' =>
    let '(q, es1, fs1) := first_of x y es' fs' in
    match es1, fs1 with
    | x1 :: es2, y1 :: fs2 =>
      let '(z, es3, fs3) := first_of x1 y1 es2 fs2 in
      finish (absorb (fst (fast_two_sum o z q)) (keep [] (snd (fast_two_sum o z q))) (merged (length es3 + length fs3) es3 fs3))
    | _, _ => finish (absorb q [] (es1 ++ fs1))
    end
  | _, _ => []
  end.

Lemma absorb_app : forall l1 l2 q h, absorb q h (l1 ++ l2) = absorb (fst (absorb q h l1)) (snd (absorb q h l1)) l2.
Proof. induction l1 as [|x l1 IH]; intros; cbn [absorb app fst snd]; auto. Qed.
Lemma keep_length : forall h y, length (keep h y) <= S (length h).
Proof. intros. unfold keep. destruct (eqb _ _ _); [lia|rewrite app_length; cbn; lia]. Qed.
Lemma absorb_length : forall l q h, length (snd (absorb q h l)) <= length h + length l.
Proof. induction l as [|x l IH]; intros q h; cbn [absorb length snd]; [lia|]. eapply Nat.le_trans; [apply IH|]. pose proof (keep_length h (snd (two_sum o q x))). lia. Qed.
Lemma store_keep : forall cap h y, length h < cap -> store_nz o cap h y = Ok (keep h y).
Proof. intros cap h y H. unfold store_nz, keep, store. destruct (eqb _ _ _); auto. apply Nat.ltb_lt in H. rewrite H. reflexivity. Qed.

Section Padded.
Variables (E0 J F0 K : list T) (cap : nat).
Hypothesis HJ : J <> [].
Hypothesis HK : K <> [].
Let E := E0 ++ J.
Let F := F0 ++ K.
(** the index i of an array A0 ++ P has xs before the padding, and the component read there is x *)
Definition at_ (A0 P xs : list T) (i : nat) (x : T) : Prop := exists pre, A0 = pre ++ xs /\ i = length pre /\ nth_error (xs ++ P) 0 = Some x.
Lemma at_hd : forall A0 P z xs i x, at_ A0 P (z :: xs) i x -> x = z.
Proof. intros A0 P z xs i x [pre [_ [_ H]]]. cbn in H. congruence. Qed.
Lemma at_next : forall A0 P z xs i x, P <> [] -> at_ A0 P (z :: xs) i x -> exists x', get (A0 ++ P) (S i) = Ok x' /\ at_ A0 P xs (S i) x'.
Proof.
  intros A0 P z xs i x HP [pre [-> [-> _]]]. destruct (nth_error (xs ++ P) 0) as [x'|] eqn:N.
  - exists x'. split.
    + unfold get. replace ((pre ++ z :: xs) ++ P) with ((pre ++ [z]) ++ (xs ++ P)) by (rewrite <- !app_assoc; reflexivity).
      rewrite nth_error_app2 by (rewrite app_length; cbn; lia). rewrite app_length. cbn [length]. replace (S (length pre) - (length pre + 1)) with 0 by lia. rewrite N. reflexivity.
    + exists (pre ++ [z]). split; [rewrite <- app_assoc; reflexivity|]. split; [rewrite app_length; cbn; lia|exact N].
  - exfalso. destruct xs; cbn in N; [destruct P; cbn in N; congruence|discriminate].
Qed.
Lemma at_more : forall A0 P xs i x, at_ A0 P xs i x -> (i <? length A0) = match xs with [] => false | _ => true end.
Proof. intros A0 P xs i x [pre [-> [-> _]]]. rewrite app_length. destruct xs; [apply Nat.ltb_ge; cbn [length]; lia|apply Nat.ltb_lt; cbn [length]; lia]. Qed.

Lemma eat_e_pad : forall sum i fi en fn q h z es, at_ E0 J (z :: es) i en -> length h < cap ->
  exists en', eat_e o sum cap E (mkLocal o i fi en fn q h) = Ok (mkLocal o (S i) fi en' fn (fst (sum q z)) (keep h (snd (sum q z)))) /\ at_ E0 J es (S i) en'.
Proof.
  intros sum i fi en fn q h z es A C. pose proof (at_hd _ _ _ _ _ _ A) as ->. destruct (at_next _ _ _ _ _ _ HJ A) as [x' [G A']]. exists x'. split; auto.
  unfold eat_e. cbn [Q enow eindex findex fnow hs]. destruct (sum q z) as [a b]. fold E in G. rewrite G. cbn [bind]. rewrite store_keep by auto. reflexivity.
Qed.
Lemma eat_f_pad : forall sum i fi en fn q h z fs, at_ F0 K (z :: fs) fi fn -> length h < cap ->
  exists fn', eat_f o sum cap F (mkLocal o i fi en fn q h) = Ok (mkLocal o i (S fi) en fn' (fst (sum q z)) (keep h (snd (sum q z)))) /\ at_ F0 K fs (S fi) fn'.
Proof.
  intros sum i fi en fn q h z fs A C. pose proof (at_hd _ _ _ _ _ _ A) as ->. destruct (at_next _ _ _ _ _ _ HK A) as [x' [G A']]. exists x'. split; auto.
  unfold eat_f. cbn [Q enow eindex findex fnow hs]. destruct (sum q z) as [a b]. fold F in G. rewrite G. cbn [bind]. rewrite store_keep by auto. reflexivity.
Qed.
Definition here (es fs : list T) (s : local) : Prop := at_ E0 J es (eindex o s) (enow o s) /\ at_ F0 K fs (findex o s) (fnow o s) /\ length (hs o s) + (length es + length fs) < cap.
Local Notation more_e := (fun s : local => Nat.ltb (eindex o s) (length E0)).
Local Notation more_f := (fun s : local => Nat.ltb (findex o s) (length F0)).
Local Notation both := (fun s : local => Nat.ltb (eindex o s) (length E0) && Nat.ltb (findex o s) (length F0)).

Lemma eat_pad : forall sum x y es fs s, here (x :: es) (y :: fs) s ->
  let '(z, es', fs') := first_of x y es fs in
  exists s', eat o sum cap E F s = Ok s' /\ here es' fs' s' /\ Q o s' = fst (sum (Q o s) z) /\ hs o s' = keep (hs o s) (snd (sum (Q o s) z)).
Proof.
  intros sum x y es fs [i fi en fn q h] [A [B C]]. cbn [eindex findex enow fnow Q hs length] in *. unfold first_of, eat. cbn [eindex findex enow fnow Q hs].
  pose proof (at_hd _ _ _ _ _ _ A) as Ex. pose proof (at_hd _ _ _ _ _ _ B) as Ey. rewrite Ex, Ey in *. destruct (take_e o x y).
  - destruct (eat_e_pad sum i fi x y q h x es A ltac:(lia)) as [en' [-> A']]. eexists. split; [reflexivity|]. cbn [eindex findex enow fnow Q hs length]. split; [|auto]. unfold here. cbn [eindex findex enow fnow Q hs length].
    pose proof (keep_length h (snd (sum q x))). repeat split; auto. lia.
  - destruct (eat_f_pad sum i fi x y q h y fs B ltac:(lia)) as [fn' [-> B']]. eexists. split; [reflexivity|]. cbn [eindex findex enow fnow Q hs length]. split; [|auto]. unfold here. cbn [eindex findex enow fnow Q hs length].
    pose proof (keep_length h (snd (sum q y))). repeat split; auto. lia.
Qed.
Lemma both_pad : forall n es fs s fuel, here es fs s -> n = length es + length fs -> n <= fuel ->
  exists es' fs' s', while o fuel both (eat o (two_sum o) cap E F) s = Ok s' /\ here es' fs' s' /\ absorb (Q o s) (hs o s) (merged n es fs) = absorb (Q o s') (hs o s') (es' ++ fs').
Proof.
  induction n as [|n IH]; intros es fs s fuel Hs N L.
  - exists es, fs, s. split; [|split; auto]. destruct Hs as [A [B _]]. destruct fuel; cbn [while]; rewrite (at_more _ _ _ _ _ A), (at_more _ _ _ _ _ B); destruct es; cbn in N; try lia; reflexivity.
  - destruct fuel as [|fuel]; [lia|]. pose proof Hs as [A [B _]]. cbn [while merged]. rewrite (at_more _ _ _ _ _ A), (at_more _ _ _ _ _ B).
    destruct es as [|x es]; [exists [], fs, s; auto|]. destruct fs as [|y fs]; [exists (x :: es), [], s; auto|]. cbn [andb].
    pose proof (eat_pad (two_sum o) x y es fs s Hs) as P. unfold first_of in P. destruct (take_e o x y).
    + destruct P as [s1 [-> [H1 [Q1 h1]]]]. cbn [bind]. destruct (IH es (y :: fs) s1 fuel H1 ltac:(cbn in *; lia) ltac:(lia)) as [es' [fs' [s' [W [H' Eq]]]]].
      exists es', fs', s'. split; [exact W|]. split; [exact H'|]. cbn [absorb]. rewrite <- Q1, <- h1. exact Eq.
    + destruct P as [s1 [-> [H1 [Q1 h1]]]]. cbn [bind]. destruct (IH (x :: es) fs s1 fuel H1 ltac:(cbn in *; lia) ltac:(lia)) as [es' [fs' [s' [W [H' Eq]]]]].
      exists es', fs', s'. split; [exact W|]. split; [exact H'|]. cbn [absorb]. rewrite <- Q1, <- h1. exact Eq.
Qed.
Lemma e_pad : forall es fs s fuel, here es fs s -> length es <= fuel ->
  exists s', while o fuel more_e (eat_e o (two_sum o) cap E) s = Ok s' /\ here [] fs s' /\ (Q o s', hs o s') = absorb (Q o s) (hs o s) es.
Proof.
  induction es as [|x es IH]; intros fs s fuel Hs L.
  - exists s. split; [|split; auto]. destruct Hs as [A _]. destruct fuel; cbn [while]; rewrite (at_more _ _ _ _ _ A); reflexivity.
  - destruct fuel as [|fuel]; [cbn in L; lia|]. destruct s as [i fi en fn q h]. destruct Hs as [A [B C]]. cbn [eindex findex enow fnow Q hs length] in *. cbn [while eindex]. rewrite (at_more _ _ _ _ _ A).
    destruct (eat_e_pad (two_sum o) i fi en fn q h x es A ltac:(lia)) as [en' [-> A']]. cbn [bind].
    pose proof (keep_length h (snd (two_sum o q x))). edestruct (IH fs) as [s' [W [H' Eq]]]; [|exact (le_S_n _ _ L)|].
    2: { exists s'. split; [exact W|]. split; [exact H'|]. exact Eq. }
    unfold here. cbn [eindex findex enow fnow Q hs length]. repeat split; auto. lia.
Qed.
Lemma f_pad : forall fs s fuel, here [] fs s -> length fs <= fuel ->
  exists s', while o fuel more_f (eat_f o (two_sum o) cap F) s = Ok s' /\ here [] [] s' /\ (Q o s', hs o s') = absorb (Q o s) (hs o s) fs.
Proof.
  induction fs as [|x fs IH]; intros s fuel Hs L.
  - exists s. split; [|split; auto]. destruct Hs as [_ [B _]]. destruct fuel; cbn [while]; rewrite (at_more _ _ _ _ _ B); reflexivity.
  - destruct fuel as [|fuel]; [cbn in L; lia|]. destruct s as [i fi en fn q h]. destruct Hs as [A [B C]]. cbn [eindex findex enow fnow Q hs length] in *. cbn [while findex]. rewrite (at_more _ _ _ _ _ B).
    destruct (eat_f_pad (two_sum o) i fi en fn q h x fs B ltac:(lia)) as [fn' [-> B']]. cbn [bind].
    pose proof (keep_length h (snd (two_sum o q x))). edestruct IH as [s' [W [H' Eq]]]; [|exact (le_S_n _ _ L)|].
    2: { exists s'. split; [exact W|]. split; [exact H'|]. exact Eq. }
    unfold here. cbn [eindex findex enow fnow Q hs length]. repeat split; auto. lia.
Qed.
Lemma at_bound : forall A0 P xs i x, at_ A0 P xs i x -> length xs <= length A0.
Proof. intros A0 P xs i x [pre [-> _]]. rewrite app_length. lia. Qed.
(** from any state on: the three loops and the end *)
Lemma tail_pad : forall es fs s, here es fs s ->
  (s <- while o (length E0 + length F0) more_e (eat_e o (two_sum o) cap E) s ;;
   s <- while o (length E0 + length F0) more_f (eat_f o (two_sum o) cap F) s ;;
   if negb (eqb o (Q o s) (zero o)) || Nat.eqb (length (hs o s)) 0 then store o cap (hs o s) (Q o s) else Ok (hs o s)) = Ok (finish (absorb (Q o s) (hs o s) (es ++ fs))).
Proof.
  intros es fs s Hs. destruct Hs as [A [B C]] eqn:X. clear X. pose proof (at_bound _ _ _ _ _ A). pose proof (at_bound _ _ _ _ _ B).
  destruct (e_pad es fs s (length E0 + length F0) (conj A (conj B C)) ltac:(lia)) as [s1 [-> [H1 Q1]]]. cbn [bind].
  destruct (f_pad fs s1 (length E0 + length F0) H1 ltac:(lia)) as [s2 [-> [H2 Q2]]]. cbn [bind].
  rewrite absorb_app, <- Q1. cbn [fst snd]. rewrite <- Q2. unfold finish. cbn [fst snd].
  destruct H2 as [_ [_ L]]. cbn [length] in L. destruct (_ || _); auto. unfold store. assert (L2 : length (hs o s2) < cap) by lia. apply Nat.ltb_lt in L2. rewrite L2. reflexivity.
Qed.
Lemma padded_sum : length E0 + length F0 <= cap -> E0 <> [] -> F0 <> [] -> fast_expansion_sum o (length E0) E (length F0) F cap = Ok (pure_sum E0 F0).
Proof.
  intros C NE NF. unfold fast_expansion_sum.
  assert (A0 : forall x es, E0 = x :: es -> at_ E0 J (x :: es) 0 x) by (intros x es ->; exists []; auto).
  assert (B0 : forall y fs, F0 = y :: fs -> at_ F0 K (y :: fs) 0 y) by (intros y fs ->; exists []; auto).
  assert (SP : forall l : list T, l <> [] -> exists z zs, l = z :: zs) by (intros [|z zs] N; [congruence|eauto]).
  destruct (SP E0 NE) as [x [es DE]]. destruct (SP F0 NF) as [y [fs DF]]. specialize (A0 x es DE). specialize (B0 y fs DF).
  assert (GE : get E 0 = Ok x) by (unfold E; rewrite DE; reflexivity). assert (GF : get F 0 = Ok y) by (unfold F; rewrite DF; reflexivity).
  rewrite GE, GF. cbn [bind]. cbv zeta.
  assert (S1 : exists s, (if take_e o x y then x0 <- get E 1;; Ok (mkLocal o 1 0 x0 y x []) else x0 <- get F 1;; Ok (mkLocal o 0 1 x x0 y [])) = Ok s /\
     let '(q, es1, fs1) := first_of x y es fs in here es1 fs1 s /\ Q o s = q /\ hs o s = []).
  { unfold first_of. destruct (take_e o x y).
    - destruct (at_next _ _ _ _ _ _ HJ A0) as [x' [G A']]. fold E in G. rewrite G. eexists. split; [reflexivity|]. cbn. split; auto. unfold here. cbn. split; [exact A'|]. split; [exact B0|].
      rewrite DE, DF in C. cbn in C. lia.
    - destruct (at_next _ _ _ _ _ _ HK B0) as [x' [G A']]. fold F in G. rewrite G. eexists. split; [reflexivity|]. cbn. split; auto. unfold here. cbn. split; [exact A0|]. split; [exact A'|].
      rewrite DE, DF in C. cbn in C. lia. }
  destruct S1 as [s [-> S1]]. cbn [bind]. transitivity (Ok (pure_sum (x :: es) (y :: fs))); [|rewrite DE, DF; reflexivity].
  unfold pure_sum. destruct (first_of x y es fs) as [[q es1] fs1]. destruct S1 as [H1 [Q1 h1]].
  pose proof H1 as [A1 [B1 _]]. rewrite (at_more _ _ _ _ _ A1), (at_more _ _ _ _ _ B1).
  destruct es1 as [|x1 es2]; [cbn [andb bind]; rewrite (tail_pad [] fs1 s H1), Q1, h1; reflexivity|].
  destruct fs1 as [|y1 fs2]; [cbn [andb bind]; rewrite (tail_pad (x1 :: es2) [] s H1), Q1, h1; reflexivity|]. cbn [andb].
  pose proof (eat_pad (fun q x => fast_two_sum o x q) x1 y1 es2 fs2 s H1) as P. destruct (first_of x1 y1 es2 fs2) as [[z es3] fs3].
  destruct P as [s1 [-> [H2 [Q2 h2]]]]. cbn [bind]. pose proof H2 as [A2 [B2 _]]. pose proof (at_bound _ _ _ _ _ A2). pose proof (at_bound _ _ _ _ _ B2).
  destruct (both_pad (length es3 + length fs3) es3 fs3 s1 (length E0 + length F0) H2 eq_refl ltac:(lia)) as [es4 [fs4 [s2 [-> [H3 Eq]]]]]. cbn [bind].
  rewrite (tail_pad es4 fs4 s2 H3). rewrite <- Eq, Q2, h2, Q1, h1. reflexivity.
Qed.
End Padded.
Lemma finish_length : forall r, 1 <= length (finish r).
Proof. intros [q h]. unfold finish. cbn [fst snd]. destruct h; [rewrite orb_true_r; cbn; lia|]. destruct (_ || _); [rewrite app_length|]; cbn; lia. Qed.
Lemma merged_length : forall n es fs, length (merged n es fs) = length es + length fs.
Proof.
  induction n as [|n IH]; intros es fs; cbn [merged]; [apply app_length|]. destruct es as [|x es]; [reflexivity|]. destruct fs as [|y fs]; [apply app_length|].
  destruct (take_e o x y); cbn [length]; rewrite IH; cbn [length]; lia.
Qed.
Lemma finish_le : forall r, length (finish r) <= S (length (snd r)).
Proof. intros r. unfold finish. destruct (_ || _); [rewrite app_length; cbn; lia|lia]. Qed.
Lemma pure_length : forall es fs, es <> [] -> fs <> [] -> 1 <= length (pure_sum es fs) <= length es + length fs.
Proof.
  intros [|x es] [|y fs] NE NF; try congruence. unfold pure_sum. destruct (first_of x y es fs) as [[q es1] fs1] eqn:D1.
  assert (L1 : S (length es1 + length fs1) = length (x :: es) + length (y :: fs)) by (unfold first_of in D1; destruct (take_e o x y); injection D1 as <- <- <-; cbn; lia).
  assert (Z : forall q, length (finish (absorb q [] (es1 ++ fs1))) <= length (x :: es) + length (y :: fs)).
  { intros q'. eapply Nat.le_trans; [apply finish_le|]. pose proof (absorb_length (es1 ++ fs1) q' []). rewrite app_length in H. cbn [length] in *. lia. }
  destruct es1 as [|x1 es2]; [split; [apply finish_length|apply Z]|]. destruct fs1 as [|y1 fs2]; [split; [apply finish_length|apply Z]|].
  destruct (first_of x1 y1 es2 fs2) as [[z es3] fs3] eqn:D2.
  assert (L2 : S (length es3 + length fs3) = length (x1 :: es2) + length (y1 :: fs2)) by (unfold first_of in D2; destruct (take_e o x1 y1); injection D2 as <- <- <-; cbn; lia).
  split; [apply finish_length|]. eapply Nat.le_trans; [apply finish_le|].
  match goal with |- context [absorb ?a ?b ?c] => pose proof (absorb_length c a b) as W end. rewrite merged_length in W.
  match goal with |- context [keep [] ?y] => pose proof (keep_length [] y) as W2 end. cbn [length] in *. lia.
Qed.
End Structure.
