From Coq Require Import String.
From Coq Require Import List Arith ZArith NArith Bool Lia.
From Verif Require Import Base AlgebraModel AlgebraSpec SolversModel GeometryModel DrawingModel MeshModel LayersModel Shell_proofs BindModel BindSpec.
Import ListNotations.

Lemma upd_app : forall X (pre : list X) x rest y, upd (pre ++ x :: rest) (length pre) y = pre ++ y :: rest.
Proof. induction pre as [|a pre IH]; intros x rest y; cbn; [reflexivity|rewrite IH; reflexivity]. Qed.
Lemma fill : forall Y (ys : list Y) (body : nat -> list Y -> res (list Y)) off z pre post a, length pre = a + off ->
  (forall i y l, nth_error ys i = Some y -> body (a + i) l = set l (a + i + off) y) ->
  forM_from (length ys) a body (pre ++ repeat z (length ys) ++ post) = Ok (pre ++ ys ++ post).
Proof.
  induction ys as [|y ys IH]; intros body off z pre post a L B; [reflexivity|]. cbn [length forM_from repeat app].
  pose proof (B 0 y (pre ++ z :: repeat z (length ys) ++ post) eq_refl) as B0. rewrite Nat.add_0_r in B0. rewrite B0.
  unfold set. rewrite app_length. cbn [length].
  assert (Q : Nat.ltb (a + off) (length pre + S (length (repeat z (length ys) ++ post))) = true) by (apply Nat.ltb_lt; lia). rewrite Q. cbn [bind].
  rewrite <- L, upd_app. replace (pre ++ y :: repeat z (length ys) ++ post) with ((pre ++ [y]) ++ repeat z (length ys) ++ post) by (rewrite <- app_assoc; reflexivity).
  rewrite (IH body off z (pre ++ [y]) post (S a)).
  - rewrite <- app_assoc. reflexivity.
  - rewrite app_length. cbn. lia.
  - intros i w l H. specialize (B (S i) w l H). replace (S a + i) with (a + S i) by lia. exact B.
Qed.
Lemma total_from : forall l a, fold_left Nat.add l a = a + list_sum l.
Proof. induction l as [|x l IH]; intros a; cbn; [lia|]. rewrite IH. unfold list_sum. lia. Qed.
Lemma total_sum : forall l, total l = list_sum l.
Proof. intros. unfold total. rewrite total_from. reflexivity. Qed.
Lemma offsets_len : forall l a, length (offsets_from a l) = length l.
Proof. induction l as [|x l IH]; intros a; cbn; [reflexivity|rewrite IH; reflexivity]. Qed.

Lemma concat_len : forall X (l : list (list X)), length (concat l) = list_sum (map (@length X) l).
Proof. induction l as [|x l IH]; [reflexivity|]. cbn [concat map]. rewrite app_length, IH. reflexivity. Qed.

Section Out.
Variable o : Ops.
Notation mesh := (mesh o (T o)).
Notation sizes ms := (map (fun m : mesh => length (m_points m)) ms).

(** layer k of a list that starts at layer k0 and node off *)
Lemma offsets_nth : forall (ms : list mesh) off k m, nth_error ms k = Some m ->
  nth_error (combine (offsets_from off (sizes ms)) ms) k = Some (off + list_sum (sizes (firstn k ms)), m).
Proof.
  induction ms as [|m0 ms IH]; intros off [|k] m H; cbn in *; try discriminate.
  - inversion H. rewrite Nat.add_0_r. reflexivity.
  - rewrite (IH _ _ _ H). unfold list_sum. do 2 f_equal. lia.
Qed.
Lemma vertices_from : forall (ms : list mesh) off pre, length pre = off ->
  forM_list (combine (offsets_from off (sizes ms)) ms)
    (fun om l => forM_up (length (m_points (snd om))) (fun j l => p <- get (m_points (snd om)) j ;; set l (j + fst om) p) l)
    (pre ++ repeat (vzero o) (list_sum (sizes ms))) = Ok (pre ++ concat (map m_points ms)).
Proof.
  induction ms as [|m ms IH]; intros off pre L; [reflexivity|]. cbn [map offsets_from combine forM_list fst snd concat].
  change (list_sum (length (m_points m) :: sizes ms)) with (length (m_points m) + list_sum (sizes ms)). rewrite repeat_app.
  unfold forM_up. rewrite (fill _ (m_points m) _ off (vzero o) pre _ 0).
  - cbn [bind]. rewrite !app_assoc. apply IH. rewrite app_length. lia.
  - lia.
  - intros i y l H. cbn. apply get_ok in H. rewrite H. reflexivity.
Qed.
Lemma vertices_all : forall ms, py_vertices o ms = Ok (concat (map m_points ms)).
Proof. intros ms. unfold py_vertices, node_offsets, offsets. rewrite total_sum. apply (vertices_from ms 0 []). reflexivity. Qed.
Lemma concat_row : forall X (f : mesh -> list X) (ms : list mesh) k m u, nth_error ms k = Some m -> u < length (f m) ->
  nth_error (concat (map f ms)) (list_sum (map (fun m => length (f m)) (firstn k ms)) + u) = nth_error (f m) u.
Proof.
  induction ms as [|m0 ms IH]; intros [|k] m u H L; cbn in *; try discriminate.
  - inversion H; subst. rewrite nth_error_app1 by exact L. reflexivity.
  - rewrite nth_error_app2 by lia. fold (list_sum (map (fun m => length (f m)) (firstn k ms))).
    replace (length (f m0) + list_sum (map (fun m => length (f m)) (firstn k ms)) + u - length (f m0)) with (list_sum (map (fun m => length (f m)) (firstn k ms)) + u) by lia.
    apply (IH _ _ _ H L).
Qed.
Lemma triangles_nth : forall (ms : list mesh) k m j t, nth_error ms k = Some m -> nth_error (m_tris m) j = Some t ->
  exists row, nth_error (py_triangles o ms) k = Some row /\ length row = length (m_tris m) /\
    nth_error row j = Some (row_of ms k (t0 t), row_of ms k (t1 t), row_of ms k (t2 t)).
Proof.
  intros ms k m j t Hk Hj. unfold py_triangles, node_offsets, offsets.
  exists (map (global_tri (list_sum (sizes (firstn k ms)))) (m_tris m)). split.
  - rewrite nth_error_map, (offsets_nth _ _ _ _ Hk). reflexivity.
  - split; [apply map_length|]. rewrite nth_error_map, Hj. cbn. unfold global_tri, row_of. rewrite (Nat.add_comm (t0 t)), (Nat.add_comm (t1 t)), (Nat.add_comm (t2 t)). reflexivity.
Qed.
Lemma triangles_len : forall (ms : list mesh), length (py_triangles o ms) = length ms.
Proof. intros ms. unfold py_triangles, node_offsets, offsets. rewrite map_length, combine_length, offsets_len, map_length. lia. Qed.

(** solve *)
Definition layer_rows (V : list (T o)) (k off : nat) (m : mesh) (d : T o) : list (option (nat * vec o * T o)) :=
  map (fun jp => Some (k, snd jp, nth (fst jp + off) V d)) (combine (seq 0 (length (m_points m))) (m_points m)).
Fixpoint all_rows (V : list (T o)) (k off : nat) (ms : list mesh) (d : T o) : list (option (nat * vec o * T o)) :=
  match ms with
  | [] => []
  | m :: ms' => layer_rows V k off m d ++ all_rows V (S k) (off + length (m_points m)) ms' d
  end.
Lemma layer_rows_len : forall V k off m d, length (layer_rows V k off m d) = length (m_points m).
Proof. intros. unfold layer_rows. rewrite map_length, combine_length, seq_length. lia. Qed.
Lemma nth_error_seq : forall n a i, i < n -> nth_error (seq a n) i = Some (a + i).
Proof. induction n as [|n IH]; intros a [|i] H; cbn; try lia; [f_equal; lia|]. rewrite IH by lia. f_equal. lia. Qed.
Lemma nth_error_combine : forall X Y (l : list X) (l' : list Y) i x y, nth_error l i = Some x -> nth_error l' i = Some y -> nth_error (combine l l') i = Some (x, y).
Proof. induction l as [|a l IH]; intros [|b l'] [|i] x y H H'; cbn in *; try discriminate; [congruence|]. apply IH; assumption. Qed.
Lemma layer_rows_nth : forall V k off m d i p v, nth_error (m_points m) i = Some p -> nth_error V (i + off) = Some v -> nth_error (layer_rows V k off m d) i = Some (Some (k, p, v)).
Proof.
  intros V k off m d i p v H E. unfold layer_rows. rewrite nth_error_map.
  assert (L : i < length (m_points m)) by (apply nth_error_Some; congruence).
  rewrite (nth_error_combine _ _ _ _ i i p); [|apply nth_error_seq, L|exact H]. cbn. rewrite (nth_error_nth _ _ _ E). reflexivity.
Qed.
Lemma rows_from : forall V d (ms : list mesh) k off pre post, length pre = off -> off + list_sum (sizes ms) <= length V ->
  forM_list (combine (seq k (length ms)) (combine (offsets_from off (sizes ms)) ms))
    (fun kom l => let '(k, (off, m)) := kom in
       forM_up (length (m_points m)) (fun j l =>
         p <- get (m_points m) j ;; v <- get V (j + off) ;; set l (j + off) (Some (k, p, v))) l)
    (pre ++ repeat None (list_sum (sizes ms)) ++ post) = Ok (pre ++ all_rows V k off ms d ++ post).
Proof.
  induction ms as [|m ms IH]; intros k off pre post L LV; [reflexivity|]. cbn [map offsets_from length seq combine forM_list all_rows].
  change (list_sum (sizes (m :: ms))) with (length (m_points m) + list_sum (sizes ms)) in LV.
  change (list_sum (length (m_points m) :: sizes ms)) with (length (m_points m) + list_sum (sizes ms)). rewrite repeat_app.
  unfold forM_up at 1. rewrite <- !app_assoc. rewrite <- (layer_rows_len V k off m d) at 1 2. rewrite (fill _ (layer_rows V k off m d) _ off None pre _ 0).
  - cbn [bind]. rewrite !app_assoc. rewrite <- (app_assoc (pre ++ _)). rewrite IH; [rewrite !app_assoc; reflexivity| |lia]. rewrite app_length, layer_rows_len. lia.
  - lia.
  - intros i y l H. cbn [Nat.add].
    assert (Li : i < length (m_points m)) by (rewrite <- (layer_rows_len V k off m d); apply nth_error_Some; congruence).
    destruct (nth_error (m_points m) i) as [p|] eqn:P; [|apply nth_error_None in P; lia].
    destruct (nth_error V (i + off)) as [v|] eqn:E; [|apply nth_error_None in E; lia].
    rewrite (layer_rows_nth V k off m d i p v P E) in H. injection H as H. subst y. apply get_ok in P, E. rewrite P. cbn [bind]. rewrite E. reflexivity.
Qed.
Lemma all_rows_nth : forall V d (ms : list mesh) k0 off k m i p v, nth_error ms k = Some m -> nth_error (m_points m) i = Some p ->
  nth_error V (off + list_sum (sizes (firstn k ms)) + i) = Some v ->
  nth_error (all_rows V k0 off ms d) (list_sum (sizes (firstn k ms)) + i) = Some (Some (k0 + k, p, v)).
Proof.
  induction ms as [|m0 ms IH]; intros k0 off [|k] m i p v Hk Hi E; cbn [nth_error] in Hk; try discriminate; cbn [all_rows].
  - inversion Hk; subst. cbn [firstn map list_sum fold_right Nat.add] in *. assert (L : i < length (m_points m)) by (apply nth_error_Some; congruence).
    rewrite nth_error_app1 by (rewrite layer_rows_len; exact L). rewrite Nat.add_0_r in *. apply layer_rows_nth; [exact Hi|]. rewrite Nat.add_comm. exact E.
  - cbn [firstn map] in *. change (list_sum (length (m_points m0) :: sizes (firstn k ms))) with (length (m_points m0) + list_sum (sizes (firstn k ms))) in *.
    rewrite nth_error_app2 by (rewrite layer_rows_len; lia). rewrite layer_rows_len.
    replace (length (m_points m0) + list_sum (sizes (firstn k ms)) + i - length (m_points m0)) with (list_sum (sizes (firstn k ms)) + i) by lia.
    replace (k0 + S k) with (S k0 + k) by lia. apply (IH (S k0) (off + length (m_points m0)) k m i p v Hk Hi). rewrite <- E. f_equal. lia.
Qed.
Lemma all_rows_len : forall V d (ms : list mesh) k off, length (all_rows V k off ms d) = list_sum (sizes ms).
Proof. induction ms as [|m ms IH]; intros k off; [reflexivity|]. cbn [all_rows]. rewrite app_length, layer_rows_len, IH. reflexivity. Qed.
Lemma all_rows_some : forall V d (ms : list mesh) k off, ~ In None (all_rows V k off ms d).
Proof.
  induction ms as [|m ms IH]; intros k off H; [exact H|]. cbn [all_rows] in H. apply in_app_or in H. destruct H as [H|H]; [|exact (IH _ _ H)].
  unfold layer_rows in H. apply in_map_iff in H. destruct H as (x & H & _). discriminate.
Qed.
Lemma rows_ok : forall V (ms : list mesh), list_sum (sizes ms) <= length V ->
  exists rows, voltage_rows o V ms = Ok rows /\ length rows = length V /\
    (forall k m i p, nth_error ms k = Some m -> nth_error (m_points m) i = Some p ->
      exists v, nth_error V (row_of ms k i) = Some v /\ nth_error rows (row_of ms k i) = Some (Some (k, p, v))) /\
    (In None rows <-> list_sum (sizes ms) < length V).
Proof.
  intros V ms L. set (d := zero o). exists (all_rows V 0 0 ms d ++ repeat None (length V - list_sum (sizes ms))). split.
  - unfold voltage_rows, node_offsets, offsets. replace (length V) with (list_sum (sizes ms) + (length V - list_sum (sizes ms))) at 1 by lia. rewrite repeat_app.
    apply (rows_from V d ms 0 0 [] (repeat None (length V - list_sum (sizes ms))) eq_refl L).
  - split; [rewrite app_length, all_rows_len, repeat_length; lia|]. split.
    + intros k m i p Hk Hi. assert (Li : i < length (m_points m)) by (apply nth_error_Some; congruence).
      assert (B : row_of ms k i < list_sum (sizes ms)).
      { assert (C : nth_error (concat (map m_points ms)) (row_of ms k i) <> None) by (unfold row_of; rewrite (concat_row _ m_points ms k m i Hk Li); congruence).
        apply nth_error_Some in C. rewrite concat_len, map_map in C. exact C. }
      destruct (nth_error V (row_of ms k i)) as [v|] eqn:E; [|apply nth_error_None in E; lia].
      exists v. split; [reflexivity|]. rewrite nth_error_app1 by (rewrite all_rows_len; exact B). apply (all_rows_nth V d ms 0 0 k m i p v Hk Hi E).
    + split.
      * intros H. apply in_app_or in H. destruct H as [H|H]; [apply all_rows_some in H; contradiction|]. destruct (length V - list_sum (sizes ms)) eqn:D; [contradiction|lia].
      * intros H. apply in_or_app. right. replace (length V - list_sum (sizes ms)) with (S (length V - list_sum (sizes ms) - 1)) by lia. left. reflexivity.
Qed.
Lemma solve_triangles_nth : forall (ms : list mesh) k m j t, nth_error ms k = Some m -> nth_error (m_tris m) j = Some t ->
  nth_error (solve_triangles o ms) (list_sum (map (fun m => length (m_tris m)) (firstn k ms)) + j) = Some (k, (row_of ms k (t0 t), row_of ms k (t1 t), row_of ms k (t2 t))).
Proof.
  assert (G : forall (ms : list mesh) k0 off k m j t, nth_error ms k = Some m -> nth_error (m_tris m) j = Some t ->
    nth_error (flat_map (fun kom => map (fun t => (fst kom, global_tri (fst (snd kom)) t)) (m_tris (snd (snd kom)))) (combine (seq k0 (length ms)) (combine (offsets_from off (sizes ms)) ms)))
      (list_sum (map (fun m => length (m_tris m)) (firstn k ms)) + j) = Some (k0 + k, global_tri (off + list_sum (sizes (firstn k ms))) t)).
  { induction ms as [|m0 ms IH]; intros k0 off [|k] m j t Hk Hj; cbn [nth_error] in Hk; try discriminate; cbn [length seq map offsets_from combine flat_map fst snd].
    - inversion Hk; subst. cbn [firstn map list_sum fold_right Nat.add] in *. assert (L : j < length (m_tris m)) by (apply nth_error_Some; congruence).
      rewrite nth_error_app1 by (rewrite map_length; exact L). rewrite nth_error_map, Hj. cbn. rewrite !Nat.add_0_r. reflexivity.
    - cbn [firstn map]. change (list_sum (length (m_tris m0) :: map (fun m => length (m_tris m)) (firstn k ms))) with (length (m_tris m0) + list_sum (map (fun m => length (m_tris m)) (firstn k ms))).
      change (list_sum (length (m_points m0) :: sizes (firstn k ms))) with (length (m_points m0) + list_sum (sizes (firstn k ms))).
      rewrite nth_error_app2 by (rewrite map_length; lia). rewrite map_length.
      replace (length (m_tris m0) + list_sum (map (fun m => length (m_tris m)) (firstn k ms)) + j - length (m_tris m0)) with (list_sum (map (fun m => length (m_tris m)) (firstn k ms)) + j) by lia.
      rewrite (IH (S k0) (off + length (m_points m0)) k m j t Hk Hj). do 2 f_equal; [lia|]. f_equal. lia. }
  intros ms k m j t Hk Hj. unfold solve_triangles, node_offsets, offsets. rewrite (G ms 0 0 k m j t Hk Hj). unfold global_tri, row_of. rewrite !Nat.add_0_l. rewrite (Nat.add_comm (t0 t)), (Nat.add_comm (t1 t)), (Nat.add_comm (t2 t)). reflexivity.
Qed.
Lemma solve_triangles_len : forall (ms : list mesh), length (solve_triangles o ms) = list_sum (map (fun m => length (m_tris m)) ms).
Proof.
  intros ms. unfold solve_triangles, node_offsets, offsets. generalize 0 at 1. generalize 0.
  induction ms as [|m ms IH]; intros off k; [reflexivity|]. cbn [length seq map offsets_from combine flat_map fst snd]. rewrite app_length, map_length, IH. reflexivity.
Qed.
Lemma powers_len : forall (ms : list mesh) V P, computePowerDensity o (T o) (fun x => x) ms V = Ok P -> length P = list_sum (map (fun m => length (m_tris m)) ms) /\ list_sum (sizes ms) <= length V.
Proof.
  assert (G : forall (ms : list mesh) V noff eoff P P', layer_powers o (T o) (fun x => x) V noff eoff ms P = Ok P' -> length P' = length P /\ (noff <= length V -> noff + list_sum (sizes ms) <= length V)).
  { induction ms as [|m ms IH]; intros V noff eoff P P' H; cbn [layer_powers] in H; [inversion H; subst; cbn; split; [reflexivity|lia]|].
    apply bind_ok in H. destruct H as (Vs & S & H). apply bind_ok in H. destruct H as (E & _ & H). apply bind_ok in H. destruct H as (P1 & F & H).
    apply IH in H. destruct H as [H1 H2]. unfold slice in S. destruct (Nat.leb (noff + length (m_points m)) (length V)) eqn:B; [|discriminate]. apply Nat.leb_le in B.
    split.
    - rewrite H1. apply (up_ok_inv _ _ (fun _ Q => length Q = length P) _ _ _ F eq_refl).
      intros i s s' Hi B1 Q. apply bind_ok in B1. destruct B1 as (x & _ & B1). unfold set in B1. destruct (Nat.ltb _ _); [|discriminate]. inversion B1. rewrite upd_length. exact Q.
    - intros _. change (list_sum (sizes (m :: ms))) with (length (m_points m) + list_sum (sizes ms)). specialize (H2 B). lia. }
  intros ms V P H. unfold computePowerDensity in H. apply G in H. destruct H as [H1 H2]. rewrite repeat_length, total_sum in H1. split; [exact H1|]. specialize (H2 ltac:(lia)). exact H2.
Qed.
Lemma power_rows_nth : forall (P : list (T o)) j x, nth_error (power_rows o P) j = Some x <-> exists v, nth_error P j = Some v /\ x = (j, v).
Proof.
  intros P j x. unfold power_rows. split.
  - intros H. assert (L : j < length P). { assert (C : j < length (combine (seq 0 (length P)) P)) by (apply nth_error_Some; congruence). rewrite combine_length, seq_length in C. lia. }
    destruct (nth_error P j) as [v|] eqn:E; [|apply nth_error_None in E; lia]. exists v. split; [reflexivity|].
    rewrite (nth_error_combine _ _ _ _ j j v) in H; [congruence|apply (nth_error_seq _ 0), L|exact E].
  - intros (v & E & ->). assert (L : j < length P) by (apply nth_error_Some; congruence). apply nth_error_combine; [apply (nth_error_seq _ 0), L|exact E].
Qed.
Lemma axpy_len : forall (a b c : list (T o)) d, axpy o a d b = Ok c -> length c = length a.
Proof.
  unfold axpy. induction a as [|x a IH]; intros [|y b] c d H; cbn [zip2] in H; try discriminate; try (inversion H; reflexivity).
  ib H r E. inversion H; subst. cbn. f_equal. exact (IH b r d E).
Qed.
Lemma loop_len : forall A w e n i (x r z p Ap : list (T o)) q y k, ssor_loop o A w e n i x r z p Ap q = Ok (y, k) -> length y = length x.
Proof.
  induction n as [|n IH]; intros i x r z p Ap q y k H; cbn [ssor_loop] in H; [inversion H; reflexivity|].
  ib H Ap' E1. ib H pAp E2. ib H al E3. cbv zeta in H. ib H x' E4. apply axpy_len in E4. ib H r' E5. ib H se E6.
  destruct (ltb o se _); [inversion H; subst; exact E4|]. ib H z' E7. ib H rz E8. ib H be E9. ib H p' E10. apply IH in H. congruence.
Qed.
Lemma ml_solve_len : forall (M : dsystem o) V, ml_solve o M = Ok V -> length V = length (sb _ M).
Proof.
  intros M V H. unfold ml_solve, cd_solve_to in H. ib H C E1. ib H w E2. ib H e E3. apply bind_ok in H. destruct H as ([x k] & E4 & H). inversion H; subst.
  unfold ssor_pcg in E4. ib E4 r F1. ib E4 z F2. ib E4 se F3. ib E4 q F4. destruct (ltb o se _).
  - inversion E4; subst. apply repeat_length.
  - apply loop_len in E4. rewrite E4. apply repeat_length.
Qed.
Lemma solve_ok : forall M (s : sim o) ms vs ts ps, s_mesh s = Some ms -> py_solve o [PySystem (Some M)] s = Ok (vs, ts, ps) ->
  exists V P, ml_solve o M = Ok V /\ computePowerDensity o (T o) (fun x => x) ms V = Ok P /\
    voltage_rows o V ms = Ok vs /\ ts = solve_triangles o ms /\ ps = power_rows o P.
Proof.
  intros M s ms vs ts ps Hm H. unfold py_solve in H. rewrite Hm in H. destruct (ml_solve o M) as [V| | |] eqn:S; cbn [uncaught bind] in H; try discriminate.
  destruct (computePowerDensity o (T o) (fun x => x) ms V) as [P| | |] eqn:C; cbn [uncaught bind] in H; try discriminate.
  apply bind_ok in H. destruct H as (vs' & R & H). inversion H; subst. exists V, P. auto.
Qed.
End Out.
