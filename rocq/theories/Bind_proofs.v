From Coq Require Import String.
From Coq Require Import List Arith ZArith NArith Bool Lia.
From Verif Require Import Base AlgebraModel AlgebraSpec SolversModel GeometryModel DrawingModel MeshModel LayersModel MeshGeo_proofs Shell_proofs Sim_proofs BindModel BindSpec.
Import ListNotations.

Lemma F2_impl : forall A B (P Q : A -> B -> Prop), (forall a b, P a b -> Q a b) -> forall l l', Forall2 P l l' -> Forall2 Q l l'.
Proof. intros A B P Q H l l' F. induction F; constructor; auto. Qed.

Section BindP.
Variable o : Ops.
Variable lm : libm o.
Variable below_inf : T o -> bool.
Variable triangulate : T o -> Z -> list (drawing o (T o)) -> option (list (mesh o (T o))).
Variable to_int : T o -> res Z.
Notation py := (py o).
Notation sim := (sim o).

Lemma as_number_ok : forall (x : py) v, as_number o (Some x) = Ok v <-> number x v.
Proof.
  intros x v. split.
  - destruct x; cbn; intros H; inversion H; subst; try constructor.
  - intros H. destruct H; cbn; try reflexivity.
Qed.
Lemma as_number_alt : forall (x : py), (exists v, as_number o (Some x) = Ok v) \/ as_number o (Some x) = Throw "TypeError".
Proof. intros x. destruct x; cbn; eauto. Qed.
Lemma is_long_ok : forall (x : py), is_long o x = true <-> exists z, integer x z.
Proof.
  intros x. split.
  - destruct x; cbn; intros H; try discriminate; eauto using i_int, i_bool.
  - intros [z H]. destruct H; reflexivity.
Qed.
Lemma as_Z_ok : forall (x : py) z, integer x z -> as_Z o x = z.
Proof. intros x z H. destruct H; cbn; [reflexivity|destruct b; reflexivity]. Qed.
Lemma integer_long : forall (x : py) z, integer x z -> is_long o x = true.
Proof. intros x z H. apply is_long_ok. eauto. Qed.

Lemma as_point_ok : forall l (p : vec o), as_point o (PyList l) = Ok p <-> coords l p.
Proof.
  intros l p. unfold as_point, items. split.
  - destruct l as [|a [|b l]]; intros H.
    + discriminate.
    + cbn [nth_error] in H. destruct (as_number_alt a) as [[v E]|E]; rewrite E in H; discriminate.
    + cbn [nth_error] in H. destruct (as_number o (Some a)) eqn:E1; try discriminate. cbn [bind] in H.
      destruct (as_number o (Some b)) eqn:E2; try discriminate. cbn [bind] in H. inversion H; subst.
      exists a, b, l. cbn. split; [reflexivity|]. split; apply as_number_ok; assumption.
  - intros (a & b & rest & -> & H1 & H2). cbn [nth_error]. apply as_number_ok in H1, H2. rewrite H1. cbn [bind]. rewrite H2. destruct p; reflexivity.
Qed.
Lemma as_point_ub : forall l, is_ub (as_point o (PyList l)) <-> short l.
Proof.
  intros l. unfold as_point, items, short. split.
  - intros [e H]. destruct l as [|a [|b l]].
    + left. reflexivity.
    + right. cbn [nth_error] in H. destruct (as_number_alt a) as [[v E]|E]; rewrite E in H; [|discriminate]. exists a, v. split; [reflexivity|apply as_number_ok, E].
    + cbn [nth_error] in H. destruct (as_number_alt a) as [[v E]|E]; rewrite E in H; [|discriminate]. cbn [bind] in H.
      destruct (as_number_alt b) as [[w F]|F]; rewrite F in H; discriminate.
  - intros [->|(a & v & -> & H)]; [eexists; reflexivity|]. cbn [nth_error]. apply as_number_ok in H. rewrite H. eexists. reflexivity.
Qed.
Lemma as_point_alt : forall x, is_ok (as_point o x) \/ is_ub (as_point o x) \/ as_point o x = Throw "TypeError".
Proof.
  intros x. unfold as_point. destruct (nth_error (items o x) 0) as [a|].
  - destruct (as_number_alt a) as [[v E]|E]; rewrite E; cbn [bind]; [|right; right; reflexivity].
    destruct (nth_error (items o x) 1) as [b|].
    + destruct (as_number_alt b) as [[w F]|F]; rewrite F; cbn [bind]; [left; eexists; reflexivity|right; right; reflexivity].
    + right. left. eexists. reflexivity.
  - right. left. eexists. reflexivity.
Qed.

(** the layer *)
Lemma ulong_in : forall (x : py) n, integer x (Z.of_nat n) -> (Z.of_nat n < 2 ^ 64)%Z -> in_ulong o x = true /\ as_ulong o x = n.
Proof.
  intros x n H Hn. assert (E : in_ulong o x = true).
  { unfold in_ulong. rewrite (as_Z_ok _ _ H). apply andb_true_intro. split; [apply Z.leb_le; lia|apply Z.ltb_lt; exact Hn]. }
  split; [exact E|]. unfold as_ulong. rewrite E, (as_Z_ok _ _ H). apply Nat2Z.id.
Qed.
Lemma layer_get : forall (s : sim) x z d, holds_layers s -> integer x z -> nth_error (s_draw s) (as_ulong o x) = Some d -> exists n, z = Z.of_nat n /\ as_ulong o x = n /\ (Z.of_nat n < 2 ^ 64)%Z.
Proof.
  intros s x z d Hs Hx E. assert (L : as_ulong o x < length (s_draw s)) by (apply nth_error_Some; congruence).
  unfold holds_layers in Hs. unfold as_ulong in *. unfold in_ulong in *. rewrite (as_Z_ok _ _ Hx) in *.
  destruct (Z.leb 0 z && Z.ltb z (2 ^ 64))%bool eqn:B.
  - apply andb_prop in B. destruct B as [B1 B2]. apply Z.leb_le in B1. exists (Z.to_nat z). split; [lia|]. split; [reflexivity|]. lia.
  - exfalso. apply inj_lt in L. rewrite N_nat_Z in L. change (Z.of_N (2 ^ 64 - 1)) with (2 ^ 64 - 1)%Z in L. lia.
Qed.
Lemma layer_none : forall (s : sim) x z, holds_layers s -> integer x z -> (nth_error (s_draw s) (as_ulong o x) = None <-> forall n, z = Z.of_nat n -> nth_error (s_draw s) n = None).
Proof.
  intros s x z Hs Hx. split.
  - intros E n ->. destruct (nth_error (s_draw s) n) as [d|] eqn:D; [|reflexivity].
    assert (n < length (s_draw s)) by (apply nth_error_Some; congruence). unfold holds_layers in Hs.
    destruct (ulong_in x n Hx ltac:(lia)) as [_ U]. rewrite U in E. congruence.
  - intros H. destruct (nth_error (s_draw s) (as_ulong o x)) as [d|] eqn:D; [|reflexivity].
    destruct (layer_get s x z d Hs Hx D) as (n & Z1 & U & _). rewrite U in D. rewrite (H n Z1) in D. discriminate.
Qed.

Definition put (s : sim) n d := mkSim (upd (s_draw s) n d) (s_depths s) (s_mesh s) (s_links s).
Lemma put_drawn : forall (s s' : sim) n c r, drawn lm n c s s' r <-> exists d d', nth_error (s_draw s) n = Some d /\ exec o lm (T o) (eqb o) c d = (d', r) /\ s' = put s n d'.
Proof.
  intros s s' n c r. split.
  - intros (d & d' & E & X & E' & L & K & H1 & H2 & H3). exists d, d'. split; [exact E|]. split; [exact X|].
    destruct s' as [ds' dp' me' li']. cbn in *. subst. unfold put. f_equal. apply nth_error_ext. clear - E E' L K.
    intros k. destruct (Nat.eq_dec k n) as [->|N].
    + rewrite nth_error_upd_same; [exact E'|]. apply nth_error_Some. congruence.
    + rewrite nth_error_upd_other by auto. apply K, N.
  - intros (d & d' & E & X & ->). exists d, d'. split; [exact E|]. split; [exact X|]. cbn.
    assert (n < length (s_draw s)) by (apply nth_error_Some; congruence).
    split; [apply nth_error_upd_same; assumption|]. split; [apply upd_length|]. split; [|auto]. intros k N. apply nth_error_upd_other. auto.
Qed.

Lemma on_layer_ok : forall (s s' : sim) x z c, holds_layers s -> integer x z ->
  (on_layer o lm x c s = (s', Ok tt) <-> exists n, z = Z.of_nat n /\ drawn lm n c s s' (Ok tt)).
Proof.
  intros s s' x z c Hs Hx. unfold on_layer. split.
  - destruct (nth_error (s_draw s) (as_ulong o x)) as [d|] eqn:D; [|intros H; inversion H].
    destruct (layer_get s x z d Hs Hx D) as (n & Z1 & U & _). rewrite U in *.
    destruct (exec o lm (T o) (eqb o) c d) as [d' r] eqn:X. intros H. injection H as H1 H2. subst s'.
    exists n. split; [exact Z1|]. apply put_drawn. exists d, d'. split; [exact D|]. split; [|reflexivity].
    rewrite X. destruct r as [[]| | |]; try discriminate. reflexivity.
  - intros (n & -> & H). apply put_drawn in H. destruct H as (d & d' & E & X & ->).
    assert (n < length (s_draw s)) by (apply nth_error_Some; congruence). unfold holds_layers in Hs.
    destruct (ulong_in x n Hx ltac:(lia)) as [_ U]. rewrite U, E, X. reflexivity.
Qed.
Lemma on_layer_ub : forall (s : sim) x z c, holds_layers s -> integer x z -> (is_ub (snd (on_layer o lm x c s)) <-> breaks lm z c s).
Proof.
  intros s x z c Hs Hx. unfold on_layer, breaks. split.
  - destruct (nth_error (s_draw s) (as_ulong o x)) as [d|] eqn:D.
    + destruct (layer_get s x z d Hs Hx D) as (n & Z1 & U & _). rewrite U in *. intros H. right. exists n, d. split; [exact Z1|]. split; [exact D|].
      destruct (exec o lm (T o) (eqb o) c d) as [d' r]. cbn in *. destruct r; cbn in H; destruct H as [e H]; try discriminate; [left|right]; eexists; reflexivity.
    + intros _. left. apply (layer_none s x z Hs Hx). exact D.
  - intros [H|(n & d & -> & E & H)].
    + apply (layer_none s x z Hs Hx) in H. rewrite H. eexists. reflexivity.
    + assert (n < length (s_draw s)) by (apply nth_error_Some; congruence). unfold holds_layers in Hs.
      destruct (ulong_in x n Hx ltac:(lia)) as [_ U]. rewrite U, E. destruct (exec o lm (T o) (eqb o) c d) as [d' r]. cbn in *.
      destruct H as [[e ->]|[e ->]]; eexists; reflexivity.
Qed.
Lemma on_layer_throw : forall (s s' : sim) x c e, on_layer o lm x c s <> (s', Throw e).
Proof.
  intros s s' x c e H. unfold on_layer in H. destruct (nth_error (s_draw s) (as_ulong o x)); [|inversion H].
  destruct (exec o lm (T o) (eqb o) c d) as [d' r]. inversion H. destruct r; discriminate.
Qed.

(** draw_rectangle *)
Lemma rect_typed : forall la lb x z s, integer x z -> py_draw_rectangle o lm [PyList la; PyList lb; x] s =
  pass o (p <- as_point o (PyList la) ;; q <- as_point o (PyList lb) ;; Ok (DrawRectangle p q)) (on_layer o lm x) s.
Proof. intros. unfold py_draw_rectangle. cbn [is_list andb]. rewrite (integer_long _ _ H). reflexivity. Qed.
Lemma rect_untyped : forall args (s : sim), ~ rectangle_args args -> py_draw_rectangle o lm args s = (s, Throw "TypeError").
Proof.
  intros args s H. unfold py_draw_rectangle. destruct args as [|a [|b [|x [|y l]]]]; try reflexivity.
  destruct a; cbn [is_list andb]; try reflexivity. destruct b; cbn [is_list andb]; try reflexivity.
  destruct (is_long o x) eqn:E; [|reflexivity]. apply is_long_ok in E. destruct E as [z E]. exfalso. apply H. unfold rectangle_args. eauto 8.
Qed.
Lemma rect_dec : forall args : list py, rectangle_args args \/ ~ rectangle_args args.
Proof.
  intros args. unfold rectangle_args. destruct args as [|a [|b [|x [|y l]]]]; try (right; intros (?&?&?&?&?&?); discriminate).
  destruct a as [| | |la| |]; try (right; intros (?&?&?&?&?&?); discriminate). destruct b as [| | |lb| |]; try (right; intros (?&?&?&?&?&?); discriminate).
  destruct (is_long o x) eqn:E. { apply is_long_ok in E. destruct E as [z E]. left. eauto 8. }
  right. intros (?&?&?&z&X&?). inversion X; subst. rewrite (integer_long _ _ H) in E. discriminate.
Qed.
Ltac pt l p := let E := fresh "E" in let e := fresh "e" in destruct (as_point_alt (PyList l)) as [[p E]|[[e E]|E]]; rewrite E in *; cbn [bind pass fst snd] in *.

Lemma rect_ok : forall args (s s' : sim), holds_layers s ->
  (py_draw_rectangle o lm args s = (s', Ok tt) <->
   exists la lb x p q n, args = [PyList la; PyList lb; x] /\ coords la p /\ coords lb q /\ integer x (Z.of_nat n) /\ drawn lm n (DrawRectangle p q) s s' (Ok tt)).
Proof.
  intros args s s' Hs. split.
  - intros H. destruct (rect_dec args) as [(la & lb & x & z & -> & Hx)|N]; [|rewrite (rect_untyped _ _ N) in H; discriminate].
    rewrite (rect_typed _ _ _ z) in H by exact Hx. pt la a; [|discriminate|discriminate]. pt lb a0; [|discriminate|discriminate].
    apply (on_layer_ok s s' x z _ Hs Hx) in H. destruct H as (n & -> & D). exists la, lb, x, a, a0, n. repeat split; try assumption; apply as_point_ok; assumption.
  - intros (la & lb & x & p & q & n & -> & H1 & H2 & Hx & D). rewrite (rect_typed _ _ _ _ _ Hx). apply as_point_ok in H1, H2. rewrite H1, H2. cbn [bind pass].
    apply (on_layer_ok s s' x _ _ Hs Hx). eauto.
Qed.
Lemma rect_ub : forall args (s : sim), holds_layers s ->
  (is_ub (snd (py_draw_rectangle o lm args s)) <->
   exists la lb x z, args = [PyList la; PyList lb; x] /\ integer x z /\
     (short la \/ (exists p, coords la p) /\ short lb \/ exists p q, coords la p /\ coords lb q /\ breaks lm z (DrawRectangle p q) s)).
Proof.
  intros args s Hs. split.
  - intros H. destruct (rect_dec args) as [(la & lb & x & z & -> & Hx)|N]; [|rewrite (rect_untyped _ _ N) in H; destruct H; discriminate].
    exists la, lb, x, z. split; [reflexivity|]. split; [exact Hx|]. rewrite (rect_typed _ _ _ z) in H by exact Hx. pt la a.
    + pt lb a0.
      * right. right. exists a, a0. split; [apply as_point_ok; assumption|]. split; [apply as_point_ok; assumption|]. apply (on_layer_ub s x z _ Hs Hx). exact H.
      * right. left. split; [exists a; apply as_point_ok; assumption|]. apply as_point_ub. eexists; eassumption.
      * destruct H; discriminate.
    + left. apply as_point_ub. eexists; eassumption.
    + destruct H; discriminate.
  - intros (la & lb & x & z & -> & Hx & H). rewrite (rect_typed _ _ _ z) by exact Hx. destruct H as [H|[[(p & H1) H2]|(p & q & H1 & H2 & H)]].
    + apply as_point_ub in H. destruct H as [e ->]. eexists. reflexivity.
    + apply as_point_ok in H1. rewrite H1. apply as_point_ub in H2. destruct H2 as [e ->]. eexists. reflexivity.
    + apply as_point_ok in H1, H2. rewrite H1, H2. cbn [bind pass]. apply (on_layer_ub s x z _ Hs Hx). exact H.
Qed.
Lemma rect_throw : forall args (s s' : sim) e, py_draw_rectangle o lm args s = (s', Throw e) -> s' = s /\ e = "TypeError"%string.
Proof.
  intros args s s' e H. destruct (rect_dec args) as [(la & lb & x & z & -> & Hx)|N].
  - rewrite (rect_typed _ _ _ z) in H by exact Hx. pt la a; [|discriminate|inversion H; auto]. pt lb a0; [|discriminate|inversion H; auto]. apply on_layer_throw in H. contradiction.
  - rewrite (rect_untyped _ _ N) in H. inversion H; auto.
Qed.

(** draw_region *)
Lemma region_typed : forall la v x z s, integer x z -> py_draw_region o lm [PyList la; PyFloat v; x] s =
  pass o (p <- as_point o (PyList la) ;; Ok (DrawRegion p v)) (on_layer o lm x) s.
Proof. intros. unfold py_draw_region. cbn [is_list andb]. rewrite (integer_long _ _ H). reflexivity. Qed.
Lemma region_untyped : forall args (s : sim), ~ region_args args -> py_draw_region o lm args s = (s, Throw "TypeError").
Proof.
  intros args s H. unfold py_draw_region. destruct args as [|a [|b [|x [|y l]]]]; try reflexivity; try (destruct b; reflexivity).
  destruct b; try reflexivity. destruct a; cbn [is_list andb]; try reflexivity.
  destruct (is_long o x) eqn:E; [|reflexivity]. apply is_long_ok in E. destruct E as [z E]. exfalso. apply H. unfold region_args. eauto 8.
Qed.
Lemma region_dec : forall args : list py, region_args args \/ ~ region_args args.
Proof.
  intros args. unfold region_args. destruct args as [|a [|b [|x [|y l]]]]; try (right; intros (?&?&?&?&?&?); discriminate).
  destruct a as [| | |la| |]; try (right; intros (?&?&?&?&?&?); discriminate). destruct b as [v| | | | |]; try (right; intros (?&?&?&?&?&?); discriminate).
  destruct (is_long o x) eqn:E. { apply is_long_ok in E. destruct E as [z E]. left. eauto 8. }
  right. intros (?&?&?&z&X&?). inversion X; subst. rewrite (integer_long _ _ H) in E. discriminate.
Qed.
Lemma region_ok : forall args (s s' : sim), holds_layers s ->
  (py_draw_region o lm args s = (s', Ok tt) <->
   exists la v x p n, args = [PyList la; PyFloat v; x] /\ coords la p /\ integer x (Z.of_nat n) /\ drawn lm n (DrawRegion p v) s s' (Ok tt)).
Proof.
  intros args s s' Hs. split.
  - intros H. destruct (region_dec args) as [(la & v & x & z & -> & Hx)|N]; [|rewrite (region_untyped _ _ N) in H; discriminate].
    rewrite (region_typed _ _ _ z) in H by exact Hx. pt la a; [|discriminate|discriminate].
    apply (on_layer_ok s s' x z _ Hs Hx) in H. destruct H as (n & -> & D). exists la, v, x, a, n. repeat split; try assumption; apply as_point_ok; assumption.
  - intros (la & v & x & p & n & -> & H1 & Hx & D). rewrite (region_typed _ _ _ _ _ Hx). apply as_point_ok in H1. rewrite H1. cbn [bind pass].
    apply (on_layer_ok s s' x _ _ Hs Hx). eauto.
Qed.
Lemma region_ub : forall args (s : sim), holds_layers s ->
  (is_ub (snd (py_draw_region o lm args s)) <->
   exists la v x z, args = [PyList la; PyFloat v; x] /\ integer x z /\ (short la \/ exists p, coords la p /\ breaks lm z (DrawRegion p v) s)).
Proof.
  intros args s Hs. split.
  - intros H. destruct (region_dec args) as [(la & v & x & z & -> & Hx)|N]; [|rewrite (region_untyped _ _ N) in H; destruct H; discriminate].
    exists la, v, x, z. split; [reflexivity|]. split; [exact Hx|]. rewrite (region_typed _ _ _ z) in H by exact Hx. pt la a.
    + right. exists a. split; [apply as_point_ok; assumption|]. apply (on_layer_ub s x z _ Hs Hx). exact H.
    + left. apply as_point_ub. eexists; eassumption.
    + destruct H; discriminate.
  - intros (la & v & x & z & -> & Hx & H). rewrite (region_typed _ _ _ z) by exact Hx. destruct H as [H|(p & H1 & H)].
    + apply as_point_ub in H. destruct H as [e ->]. eexists. reflexivity.
    + apply as_point_ok in H1. rewrite H1. cbn [bind pass]. apply (on_layer_ub s x z _ Hs Hx). exact H.
Qed.
Lemma region_throw : forall args (s s' : sim) e, py_draw_region o lm args s = (s', Throw e) -> s' = s /\ e = "TypeError"%string.
Proof.
  intros args s s' e H. destruct (region_dec args) as [(la & v & x & z & -> & Hx)|N].
  - rewrite (region_typed _ _ _ z) in H by exact Hx. pt la a; [|discriminate|inversion H; auto]. apply on_layer_throw in H. contradiction.
  - rewrite (region_untyped _ _ N) in H. inversion H; auto.
Qed.

(** draw_polygon *)
Lemma as_vertex_ok : forall (x : py) p, as_vertex o x = Ok p <-> vertex x p.
Proof.
  intros x p. unfold as_vertex, vertex. split.
  - destruct x as [| | |[|a [|b [|c l]]]| |]; try discriminate. intros H.
    destruct (as_number_alt a) as [[v E]|E]; rewrite E in H; [|discriminate]. cbn [bind] in H.
    destruct (as_number_alt b) as [[w F]|F]; rewrite F in H; [|discriminate]. cbn [bind] in H. inversion H; subst.
    exists a, b. split; [reflexivity|]. split; apply as_number_ok; assumption.
  - intros (a & b & -> & H1 & H2). apply as_number_ok in H1, H2. rewrite H1. cbn [bind]. rewrite H2. destruct p; reflexivity.
Qed.
Lemma as_vertex_alt : forall x, is_ok (as_vertex o x) \/ as_vertex o x = Throw "TypeError".
Proof.
  intros x. unfold as_vertex. destruct x as [| | |[|a [|b [|c l]]]| |]; try (right; reflexivity).
  destruct (as_number_alt a) as [[v E]|E]; rewrite E; [|right; reflexivity]. cbn [bind].
  destruct (as_number_alt b) as [[w F]|F]; rewrite F; [|right; reflexivity]. left. eexists. reflexivity.
Qed.
Lemma vertices_ok : forall l ps, map_res (as_vertex o) l = Ok ps <-> Forall2 vertex l ps.
Proof.
  intros l ps. split.
  - intros H. apply map_res_F2 in H. revert H. apply F2_impl. intros x p. apply as_vertex_ok.
  - intros H. apply map_res_nth. revert H. apply F2_impl. intros x p. apply as_vertex_ok.
Qed.
Lemma vertices_alt : forall l, is_ok (map_res (as_vertex o) l) \/ map_res (as_vertex o) l = Throw "TypeError".
Proof.
  induction l as [|x l IH]; cbn [map_res]; [left; eexists; reflexivity|].
  destruct (as_vertex_alt x) as [[p E]|E]; rewrite E; cbn [bind]; [|right; reflexivity].
  destruct IH as [[ps F]|F]; rewrite F; cbn [bind]; [left; eexists; reflexivity|right; reflexivity].
Qed.
Lemma polygon_typed : forall l x z s, integer x z -> py_draw_polygon o lm [PyList l; x] s =
  pass o (ps <- map_res (as_vertex o) l ;; Ok (DrawPolygon ps)) (on_layer o lm x) s.
Proof. intros. unfold py_draw_polygon. rewrite (integer_long _ _ H). reflexivity. Qed.
Lemma polygon_untyped : forall args (s : sim), ~ polygon_args args -> py_draw_polygon o lm args s = (s, Throw "TypeError").
Proof.
  intros args s H. unfold py_draw_polygon. destruct args as [|a [|x [|y l]]]; try reflexivity; try (destruct a; reflexivity).
  destruct a; try reflexivity.
  destruct (is_long o x) eqn:E; [|reflexivity]. apply is_long_ok in E. destruct E as [z E]. exfalso. apply H. unfold polygon_args. eauto 8.
Qed.
Lemma polygon_dec : forall args : list py, polygon_args args \/ ~ polygon_args args.
Proof.
  intros args. unfold polygon_args. destruct args as [|a [|x [|y l]]]; try (right; intros (?&?&?&?&?); discriminate).
  destruct a as [| | |la| |]; try (right; intros (?&?&?&?&?); discriminate).
  destruct (is_long o x) eqn:E. { apply is_long_ok in E. destruct E as [z E]. left. eauto 8. }
  right. intros (?&?&z&X&?). inversion X; subst. rewrite (integer_long _ _ H) in E. discriminate.
Qed.
Lemma polygon_ok : forall args (s s' : sim), holds_layers s ->
  (py_draw_polygon o lm args s = (s', Ok tt) <->
   exists l x ps n, args = [PyList l; x] /\ Forall2 vertex l ps /\ integer x (Z.of_nat n) /\ drawn lm n (DrawPolygon ps) s s' (Ok tt)).
Proof.
  intros args s s' Hs. split.
  - intros H. destruct (polygon_dec args) as [(l & x & z & -> & Hx)|N]; [|rewrite (polygon_untyped _ _ N) in H; discriminate].
    rewrite (polygon_typed _ _ z) in H by exact Hx. destruct (vertices_alt l) as [[ps E]|E]; rewrite E in H; cbn [bind pass] in H; [|discriminate].
    apply (on_layer_ok s s' x z _ Hs Hx) in H. destruct H as (n & -> & D). exists l, x, ps, n. repeat split; try assumption; apply vertices_ok; assumption.
  - intros (l & x & ps & n & -> & H1 & Hx & D). rewrite (polygon_typed _ _ _ _ Hx). apply vertices_ok in H1. rewrite H1. cbn [bind pass].
    apply (on_layer_ok s s' x _ _ Hs Hx). eauto.
Qed.
Lemma polygon_ub : forall args (s : sim), holds_layers s ->
  (is_ub (snd (py_draw_polygon o lm args s)) <->
   exists l x ps z, args = [PyList l; x] /\ integer x z /\ Forall2 vertex l ps /\ breaks lm z (DrawPolygon ps) s).
Proof.
  intros args s Hs. split.
  - intros H. destruct (polygon_dec args) as [(l & x & z & -> & Hx)|N]; [|rewrite (polygon_untyped _ _ N) in H; destruct H; discriminate].
    rewrite (polygon_typed _ _ z) in H by exact Hx. destruct (vertices_alt l) as [[ps E]|E]; rewrite E in H; cbn [bind pass] in H; [|destruct H; discriminate].
    exists l, x, ps, z. split; [reflexivity|]. split; [exact Hx|]. split; [apply vertices_ok, E|]. apply (on_layer_ub s x z _ Hs Hx). exact H.
  - intros (l & x & ps & z & -> & Hx & H1 & H). rewrite (polygon_typed _ _ z) by exact Hx. apply vertices_ok in H1. rewrite H1. cbn [bind pass].
    apply (on_layer_ub s x z _ Hs Hx). exact H.
Qed.
Lemma polygon_throw : forall args (s s' : sim) e, py_draw_polygon o lm args s = (s', Throw e) -> s' = s /\ e = "TypeError"%string.
Proof.
  intros args s s' e H. destruct (polygon_dec args) as [(l & x & z & -> & Hx)|N].
  - rewrite (polygon_typed _ _ z) in H by exact Hx. destruct (vertices_alt l) as [[ps E]|E]; rewrite E in H; cbn [bind pass] in H; [|inversion H; auto].
    apply on_layer_throw in H. contradiction.
  - rewrite (polygon_untyped _ _ N) in H. inversion H; auto.
Qed.

(** add_interconnection *)
Lemma number_check : forall (x : py), (is_float o x || is_long o x)%bool = true <-> exists v, number x v.
Proof.
  intros x. split.
  - destruct x; cbn; intros H; try discriminate; eauto using n_float, n_int, n_bool.
  - intros [v H]. destruct H; reflexivity.
Qed.
Lemma link_untyped : forall args (s : sim), ~ link_args args -> py_add_interconnection o args s = (s, Throw "TypeError").
Proof.
  intros args s H. unfold py_add_interconnection. destruct args as [|a [|b [|x [|y [|u [|w l]]]]]]; try reflexivity.
  destruct a; cbn [is_list andb]; try reflexivity. destruct b; cbn [is_list andb]; try reflexivity.
  destruct (is_long o x) eqn:E; [|reflexivity]. destruct (is_long o y) eqn:F; [|reflexivity].
  destruct (is_float o u || is_long o u)%bool eqn:G; [|reflexivity].
  apply is_long_ok in E, F. apply number_check in G. destruct E as [z E], F as [w F], G as [r G]. exfalso. apply H. unfold link_args.
  exists l, l0, x, y, u, z, w, r. auto.
Qed.
Lemma link_dec : forall args : list py, link_args args \/ ~ link_args args.
Proof.
  intros args. unfold link_args. destruct args as [|a [|b [|x [|y [|u [|w l]]]]]]; try (right; intros (?&?&?&?&?&?&?&?&?&?); discriminate).
  destruct a as [| | |la| |]; try (right; intros (?&?&?&?&?&?&?&?&?&?); discriminate). destruct b as [| | |lb| |]; try (right; intros (?&?&?&?&?&?&?&?&?&?); discriminate).
  destruct (is_long o x) eqn:E.
  2: { right. intros (?&?&?&?&?&?&?&?&X&I1&I2&I3). inversion X; subst. rewrite (integer_long _ _ I1) in E. discriminate. }
  destruct (is_long o y) eqn:F.
  2: { right. intros (?&?&?&?&?&?&?&?&X&I1&I2&I3). inversion X; subst. rewrite (integer_long _ _ I2) in F. discriminate. }
  destruct (is_float o u || is_long o u)%bool eqn:G.
  2: { right. intros (?&?&?&?&?&?&?&r&X&I1&I2&I3). inversion X; subst. rewrite (proj2 (number_check _) (ex_intro _ r I3)) in G. discriminate. }
  apply is_long_ok in E, F. apply number_check in G. destruct E as [z E], F as [w F], G as [r G]. left. exists la, lb, x, y, u, z, w, r. auto.
Qed.
Definition stored (s : sim) (w : link o) : sim := mkSim (s_draw s) (s_depths s) (s_mesh s) (s_links s ++ [w]).
Lemma link_typed : forall la lb x y u z w r s, integer x z -> integer y w -> number u r ->
  py_add_interconnection o [PyList la; PyList lb; x; y; u] s =
  pass o (p <- as_point o (PyList la) ;; q <- as_point o (PyList lb) ;; Ok (mkLink p q (as_ulong o x) (as_ulong o y) r))
    (fun k s => (stored s k, _ <- leave o x ;; leave o y)) s.
Proof.
  intros la lb x y u z w r s Hx Hy Hu. unfold py_add_interconnection. cbn [is_list andb]. rewrite (integer_long _ _ Hx), (integer_long _ _ Hy).
  assert (C : exists v, number u v) by eauto. apply number_check in C. rewrite C. cbn [andb]. apply as_number_ok in Hu.
  destruct (as_point o (PyList la)); cbn [bind]; try reflexivity. destruct (as_point o (PyList lb)); cbn [bind]; try reflexivity. rewrite Hu. reflexivity.
Qed.
Lemma leave_ok : forall (x : py) z, integer x z -> (leave o x = Ok tt <-> (0 <= z < 2 ^ 64)%Z).
Proof.
  intros x z H. unfold leave, in_ulong. rewrite (as_Z_ok _ _ H). destruct (Z.leb 0 z && Z.ltb z (2 ^ 64))%bool eqn:B.
  - apply andb_prop in B. destruct B as [B1 B2]. apply Z.leb_le in B1. apply Z.ltb_lt in B2. split; [intros _; split; assumption|reflexivity].
  - split; [discriminate|]. intros [B1 B2]. exfalso. apply Z.leb_le in B1. apply Z.ltb_lt in B2. rewrite B1, B2 in B. discriminate.
Qed.
Lemma leave_alt : forall x : py, leave o x = Ok tt \/ leave o x = Throw "SystemError".
Proof. intros x. unfold leave. destruct (in_ulong o x); auto. Qed.
Lemma link_ok : forall args (s s' : sim),
  (py_add_interconnection o args s = (s', Ok tt) <->
   exists la lb x y u p q k l r, args = [PyList la; PyList lb; x; y; u] /\ coords la p /\ coords lb q /\
     integer x (Z.of_nat k) /\ (Z.of_nat k < 2 ^ 64)%Z /\ integer y (Z.of_nat l) /\ (Z.of_nat l < 2 ^ 64)%Z /\ number u r /\
     s' = mkSim (s_draw s) (s_depths s) (s_mesh s) (s_links s ++ [mkLink p q k l r])).
Proof.
  intros args s s'. split.
  - intros H. destruct (link_dec args) as [(la & lb & x & y & u & z & w & r & -> & Hx & Hy & Hu)|N]; [|rewrite (link_untyped _ _ N) in H; discriminate].
    rewrite (link_typed _ _ _ _ _ _ _ _ _ Hx Hy Hu) in H. pt la a; [|discriminate|discriminate]. pt lb a0; [|discriminate|discriminate].
    injection H as H1 H2. destruct (leave_alt x) as [L1|L1]; rewrite L1 in H2; cbn [bind] in H2; [|discriminate].
    apply (leave_ok _ _ Hx) in L1. apply (leave_ok _ _ Hy) in H2.
    assert (Z1 : z = Z.of_nat (Z.to_nat z)) by lia. assert (Z2 : w = Z.of_nat (Z.to_nat w)) by lia. rewrite Z1 in Hx. rewrite Z2 in Hy.
    destruct (ulong_in _ _ Hx ltac:(lia)) as [_ U1]. destruct (ulong_in _ _ Hy ltac:(lia)) as [_ U2]. rewrite U1, U2 in H1.
    exists la, lb, x, y, u, a, a0, (Z.to_nat z), (Z.to_nat w), r. split; [reflexivity|]. split; [apply as_point_ok; assumption|]. split; [apply as_point_ok; assumption|].
    split; [exact Hx|]. split; [lia|]. split; [exact Hy|]. split; [lia|]. split; [exact Hu|]. symmetry. exact H1.
  - intros (la & lb & x & y & u & p & q & k & l & r & -> & H1 & H2 & Hx & Bx & Hy & By & Hu & ->).
    rewrite (link_typed _ _ _ _ _ _ _ _ _ Hx Hy Hu). apply as_point_ok in H1, H2. rewrite H1, H2. cbn [bind pass].
    destruct (ulong_in _ _ Hx Bx) as [_ U1]. destruct (ulong_in _ _ Hy By) as [_ U2]. rewrite U1, U2.
    assert (L1 : leave o x = Ok tt) by (apply (leave_ok _ _ Hx); lia). assert (L2 : leave o y = Ok tt) by (apply (leave_ok _ _ Hy); lia). rewrite L1, L2. reflexivity.
Qed.
Lemma link_ub : forall args (s : sim),
  (is_ub (snd (py_add_interconnection o args s)) <->
   exists la lb x y u, args = [PyList la; PyList lb; x; y; u] /\ link_args args /\ (short la \/ (exists p, coords la p) /\ short lb)).
Proof.
  intros args s. split.
  - intros H. destruct (link_dec args) as [N|N]; [|rewrite (link_untyped _ _ N) in H; destruct H; discriminate].
    pose proof N as N'. destruct N as (la & lb & x & y & u & z & w & r & -> & Hx & Hy & Hu).
    exists la, lb, x, y, u. split; [reflexivity|]. split; [exact N'|]. rewrite (link_typed _ _ _ _ _ _ _ _ _ Hx Hy Hu) in H. pt la a.
    + pt lb a0.
      * exfalso. destruct (leave_alt x) as [L|L]; rewrite L in H; cbn [bind] in H; [destruct (leave_alt y) as [L2|L2]; rewrite L2 in H|]; destruct H; discriminate.
      * right. split; [exists a; apply as_point_ok; assumption|]. apply as_point_ub. eexists; eassumption.
      * destruct H; discriminate.
    + left. apply as_point_ub. eexists; eassumption.
    + destruct H; discriminate.
  - intros (la & lb & x & y & u & -> & (la' & lb' & x' & y' & u' & z & w & r & X & Hx & Hy & Hu) & H). inversion X; subst.
    rewrite (link_typed _ _ _ _ _ _ _ _ _ Hx Hy Hu). destruct H as [H|[(p & H1) H2]].
    + apply as_point_ub in H. destruct H as [e ->]. eexists. reflexivity.
    + apply as_point_ok in H1. rewrite H1. apply as_point_ub in H2. destruct H2 as [e ->]. eexists. reflexivity.
Qed.
(** an exception leaves the simulation as it is unless a layer number is out of range *)
Lemma link_throw : forall args (s s' : sim) e, py_add_interconnection o args s = (s', Throw e) ->
  s' = s /\ e = "TypeError"%string \/
  e = "SystemError"%string /\ s' <> s /\ exists a b x y u z w, args = [a; b; x; y; u] /\ integer x z /\ integer y w /\ ~ ((0 <= z < 2 ^ 64)%Z /\ (0 <= w < 2 ^ 64)%Z).
Proof.
  intros args s s' e H. destruct (link_dec args) as [(la & lb & x & y & u & z & w & r & -> & Hx & Hy & Hu)|N]; [|rewrite (link_untyped _ _ N) in H; inversion H; auto].
  rewrite (link_typed _ _ _ _ _ _ _ _ _ Hx Hy Hu) in H. pt la a; [|discriminate|inversion H; auto]. pt lb a0; [|discriminate|inversion H; auto].
  right. injection H as H1 H2. split.
  { destruct (leave_alt x) as [L|L]; rewrite L in H2; cbn [bind] in H2; [|congruence]. destruct (leave_alt y) as [L2|L2]; rewrite L2 in H2; congruence. }
  split.
  { subst s'. unfold stored. destruct s as [a1 a2 a3 a4]. cbn. intros C. injection C as C. apply (f_equal (@length _)) in C. rewrite app_length in C. cbn in C. lia. }
  exists (PyList la), (PyList lb), x, y, u, z, w. split; [reflexivity|]. split; [exact Hx|]. split; [exact Hy|]. intros [B1 B2].
  apply (leave_ok _ _ Hx) in B1. apply (leave_ok _ _ Hy) in B2. rewrite B1, B2 in H2. discriminate.
Qed.

Lemma link_stored : forall la lb x y u p q z w r (s : sim), coords la p -> coords lb q -> integer x z -> integer y w -> number u r -> ~ ((0 <= z < 2 ^ 64)%Z /\ (0 <= w < 2 ^ 64)%Z) ->
  exists s', py_add_interconnection o [PyList la; PyList lb; x; y; u] s = (s', Throw "SystemError") /\ length (s_links s') = S (length (s_links s)).
Proof.
  intros la lb x y u p q z w r s H1 H2 Hx Hy Hu B. rewrite (link_typed _ _ _ _ _ _ _ _ _ Hx Hy Hu). apply as_point_ok in H1, H2. rewrite H1, H2. cbn [bind pass].
  exists (stored s (mkLink p q (as_ulong o x) (as_ulong o y) r)). split; [|unfold stored; cbn [s_links]; rewrite app_length; cbn [length]; lia]. f_equal.
  destruct (leave_alt x) as [L|L]; rewrite L; cbn [bind]; [|reflexivity]. destruct (leave_alt y) as [L2|L2]; [|exact L2].
  exfalso. apply B. split; [apply (leave_ok _ _ Hx), L|apply (leave_ok _ _ Hy), L2].
Qed.

(** the constructor *)
Lemma numbers_ok : forall (l : list py) ds, map_res (fun x => as_number o (Some x)) l = Ok ds <-> Forall2 number l ds.
Proof.
  intros l ps. split.
  - intros H. apply map_res_F2 in H. revert H. apply F2_impl. intros x p. apply as_number_ok.
  - intros H. apply map_res_nth. revert H. apply F2_impl. intros x p. apply as_number_ok.
Qed.
Lemma new_ok : forall args s,
  py_new o args = Ok s <->
  exists x z l ds, args = [x; PyList l] /\ integer x z /\ (z mod 2 ^ 32)%Z = Z.of_nat (length l) /\ Forall2 number l ds /\
    s = mkSim (map (fun _ => empty_drawing o (T o)) l) ds None [].
Proof.
  assert (R : forall X Y (y : Y) (l : list X), repeat y (length l) = map (fun _ => y) l) by (intros X Y y l; induction l; cbn; congruence).
  intros args s. split.
  - intros H. unfold py_new in H. destruct args as [|x [|dp [|w l]]]; try discriminate.
    destruct (is_long o x) eqn:E; cbn [negb] in H; [|discriminate]. apply is_long_ok in E. destruct E as [z E].
    destruct dp as [| | |l| |]; try discriminate. rewrite (as_Z_ok _ _ E) in H. cbv zeta in H.
    remember (Z.to_nat (z mod 2 ^ 32)) as num eqn:Hn.
    destruct (Nat.eqb (length l) num) eqn:N; cbn [negb] in H; [|discriminate]. apply Nat.eqb_eq in N.
    apply bind_ok in H. destruct H as (ds & F & H). injection H as H. subst s. exists x, z, l, ds. split; [reflexivity|]. split; [exact E|].
    pose proof (Z.mod_pos_bound z (2 ^ 32) eq_refl). split; [lia|]. split; [apply numbers_ok, F|]. rewrite <- N, R. reflexivity.
  - intros (x & z & l & ds & -> & Hx & M & F & ->). unfold py_new. rewrite (integer_long _ _ Hx), (as_Z_ok _ _ Hx), M, Nat2Z.id. cbn [negb]. rewrite Nat.eqb_refl. cbn [negb].
    apply numbers_ok in F. rewrite F. cbn [bind]. rewrite R. reflexivity.
Qed.
Lemma numbers_alt : forall l : list py, is_ok (map_res (fun x => as_number o (Some x)) l) \/ map_res (fun x => as_number o (Some x)) l = Throw "TypeError".
Proof.
  induction l as [|x l IH]; cbn [map_res]; [left; eexists; reflexivity|].
  destruct (as_number_alt x) as [[p E]|E]; rewrite E; cbn [bind]; [|right; reflexivity].
  destruct IH as [[ps F]|F]; rewrite F; cbn [bind]; [left; eexists; reflexivity|right; reflexivity].
Qed.
Lemma new_safe : forall args, is_ok (py_new o args) \/ is_throw (py_new o args).
Proof.
  intros args. unfold py_new. destruct args as [|x [|dp [|w l]]]; try (right; eexists; reflexivity).
  destruct (is_long o x); cbn [negb]; [|right; eexists; reflexivity]. destruct dp as [| | |l| |]; try (right; eexists; reflexivity).
  destruct (Nat.eqb (length l) _); cbn [negb]; [|right; eexists; reflexivity].
  destruct (numbers_alt l) as [[ds E]|E]; rewrite E; cbn [bind]; [left|right]; eexists; reflexivity.
Qed.
Lemma new_holds : forall args s, py_new o args = Ok s -> holds_layers s.
Proof.
  intros args s H. apply new_ok in H. destruct H as (x & z & l & ds & _ & _ & M & _ & ->). unfold holds_layers. cbn. rewrite map_length.
  pose proof (Z.mod_pos_bound z (2 ^ 32) eq_refl). rewrite <- M. apply Z.lt_trans with (2 ^ 32)%Z; [apply H|reflexivity].
Qed.

(** set_voltage *)
Lemma voltage_untyped : forall args (s : sim), ~ voltage_args args -> py_set_voltage o below_inf args s = Throw "TypeError".
Proof.
  intros args s H. unfold py_set_voltage. destruct args as [|y [|a [|v [|x [|w l]]]]]; try reflexivity; try (destruct y; reflexivity).
  destruct y; try reflexivity. destruct a; cbn [is_list andb]; try reflexivity.
  destruct (is_float o v || is_long o v)%bool eqn:G; [|reflexivity]. destruct (is_long o x) eqn:E; [|reflexivity].
  apply is_long_ok in E. apply number_check in G. destruct E as [z E], G as [r G]. exfalso. apply H. unfold voltage_args.
  exists s0, l, v, x, r, z. auto.
Qed.
Lemma voltage_typed : forall M la u x v z s, number u v -> integer x z -> py_set_voltage o below_inf [PySystem M; PyList la; u; x] s =
  (p <- as_point o (PyList la) ;;
   match M, s_mesh s with
   | Some M, Some ms => uncaught (ml_setVoltage o (T o) below_inf ms M p v (as_ulong o x))
   | _, _ => UB "null or uninitialised"
   end).
Proof.
  intros M la u x v z s Hu Hx. unfold py_set_voltage. assert (C : exists v, number u v) by eauto. apply number_check in C. cbn [is_list andb]. rewrite C, (integer_long _ _ Hx). cbn [andb].
  apply as_number_ok in Hu. destruct (as_point o (PyList la)); cbn [bind]; try reflexivity. rewrite Hu. reflexivity.
Qed.
Lemma voltage_ok : forall args (s : sim) ms M', s_mesh s = Some ms -> (Z.of_nat (length ms) < 2 ^ 64)%Z ->
  (py_set_voltage o below_inf args s = Ok M' <->
   exists M la u x p v n, args = [PySystem (Some M); PyList la; u; x] /\ coords la p /\ number u v /\ integer x (Z.of_nat n) /\
     ml_setVoltage o (T o) below_inf ms M p v n = Ok M').
Proof.
  intros args s ms M' Hm Hl. split.
  - intros H. assert (D : voltage_args args).
    { unfold py_set_voltage in H. destruct args as [|y [|a [|v [|x [|w l]]]]]; try discriminate; try (destruct y; discriminate).
      destruct y; try discriminate. destruct a; cbn [is_list andb] in H; try discriminate.
      destruct (is_float o v || is_long o v)%bool eqn:G; [|discriminate]. destruct (is_long o x) eqn:E; [|discriminate].
      apply is_long_ok in E. apply number_check in G. destruct E as [z E], G as [r G]. exists s0, l, v, x, r, z. auto. }
    destruct D as (M & la & u & x & v & z & -> & Hu & Hx). rewrite (voltage_typed _ _ _ _ _ _ _ Hu Hx) in H. pt la a; [|discriminate|discriminate].
    rewrite Hm in H. destruct M as [M|]; [|discriminate]. destruct (ml_setVoltage o (T o) below_inf ms M a v (as_ulong o x)) eqn:S; try discriminate. cbn in H. inversion H; subst.
    assert (L : as_ulong o x < length ms).
    { unfold ml_setVoltage in S. apply bind_ok in S. destruct S as (m & S & _). apply get_ok in S. apply nth_error_Some. congruence. }
    assert (Z1 : z = Z.of_nat (as_ulong o x)).
    { unfold as_ulong in *. unfold in_ulong in *. rewrite (as_Z_ok _ _ Hx) in *. destruct (Z.leb 0 z && Z.ltb z (2 ^ 64))%bool eqn:B.
      - apply andb_prop in B. destruct B as [B1 B2]. apply Z.leb_le in B1. lia.
      - exfalso. apply inj_lt in L. rewrite N_nat_Z in L. change (Z.of_N (2 ^ 64 - 1)) with (2 ^ 64 - 1)%Z in L. lia. }
    exists M, la, u, x, a, v, (as_ulong o x). split; [reflexivity|]. split; [apply as_point_ok; assumption|]. split; [exact Hu|]. split; [rewrite <- Z1; exact Hx|exact S].
  - intros (M & la & u & x & p & v & n & -> & H1 & Hu & Hx & S). rewrite (voltage_typed _ _ _ _ _ _ _ Hu Hx). apply as_point_ok in H1. rewrite H1, Hm. cbn [bind].
    assert (L : n < length ms). { unfold ml_setVoltage in S. apply bind_ok in S. destruct S as (m & S' & _). apply get_ok in S'. apply nth_error_Some. congruence. }
    destruct (ulong_in _ _ Hx ltac:(lia)) as [_ U]. rewrite U, S. reflexivity.
Qed.
Lemma voltage_null : forall la p u v x z (s : sim), coords la p -> number u v -> integer x z -> is_ub (py_set_voltage o below_inf [PySystem None; PyList la; u; x] s).
Proof. intros la p u v x z s H Hu Hx. rewrite (voltage_typed _ _ _ _ _ _ _ Hu Hx). apply as_point_ok in H. rewrite H. eexists. reflexivity. Qed.
Lemma voltage_layer : forall M la p u v x z (s : sim) ms, coords la p -> number u v -> integer x z -> s_mesh s = Some ms -> (Z.of_nat (length ms) < 2 ^ 64)%Z ->
  ~ (0 <= z < Z.of_nat (length ms))%Z -> is_ub (py_set_voltage o below_inf [PySystem M; PyList la; u; x] s).
Proof.
  intros M la p u v x z s ms H Hu Hx Hm Hl Hz. rewrite (voltage_typed _ _ _ _ _ _ _ Hu Hx). apply as_point_ok in H. rewrite H, Hm. cbn [bind].
  destruct M as [M|]; [|eexists; reflexivity].
  assert (N : nth_error ms (as_ulong o x) = None).
  { apply nth_error_None. unfold as_ulong, in_ulong. rewrite (as_Z_ok _ _ Hx). destruct (Z.leb 0 z && Z.ltb z (2 ^ 64))%bool eqn:B.
    - apply andb_prop in B. destruct B as [B1 B2]. apply Z.leb_le in B1. lia.
    - apply Nat2Z.inj_le. rewrite N_nat_Z. change (Z.of_N (2 ^ 64 - 1)) with (2 ^ 64 - 1)%Z. lia. }
  unfold ml_setVoltage, get. rewrite N. eexists. reflexivity.
Qed.

(** a stored interconnection with a layer that does not exist *)
Lemma draw_link_len : forall k ds ds', draw_link o (T o) k ds = Ok ds' -> length ds' = length ds /\ k_layer1 k < length ds /\ k_layer2 k < length ds.
Proof.
  assert (P : forall ds l p ds', add_point o (T o) ds l p = Ok ds' -> length ds' = length ds /\ l < length ds).
  { intros ds l p ds' H. unfold add_point in H. apply bind_ok in H. destruct H as (d & G & H). apply get_ok in G.
    assert (L : l < length ds) by (apply nth_error_Some; congruence). unfold set in H. destruct (Nat.ltb l (length ds)); [|discriminate]. inversion H. split; [apply upd_length|exact L]. }
  intros k ds ds' H. unfold draw_link in H. apply bind_ok in H. destruct H as (d1 & H1 & H2). apply P in H1, H2. destruct H1, H2. split; [congruence|]. split; [assumption|congruence].
Qed.
Lemma draw_links_layers : forall links ds ds', forM_list links (draw_link o (T o)) ds = Ok ds' -> Forall (fun k => k_layer1 k < length ds /\ k_layer2 k < length ds) links.
Proof.
  induction links as [|k links IH]; intros ds ds' H; [constructor|]. cbn [forM_list] in H. apply bind_ok in H. destruct H as (d1 & H1 & H2).
  apply draw_link_len in H1. destruct H1 as (L & H1). constructor; [exact H1|]. apply IH in H2. rewrite L in H2. exact H2.
Qed.
Lemma refine_len : forall (ds : list (drawing o (T o))), length (fst (refine_all o lm ds)) = length ds.
Proof.
  induction ds as [|d ds IH]; [reflexivity|]. cbn [refine_all]. destruct (addRefiningPoints o lm (T o) d) as [d' [| | |]]; cbn; try reflexivity.
  destruct (refine_all o lm ds) as [l r]. cbn in *. congruence.
Qed.
Lemma generate_layers : forall args (s s' : sim) r, py_generate_system o lm below_inf triangulate to_int args s = (s', Ok r) ->
  Forall (fun k => k_layer1 k < length (s_draw s) /\ k_layer2 k < length (s_draw s)) (s_links s).
Proof.
  intros args s s' r H. unfold py_generate_system in H. destruct (Nat.ltb 3 (length args)); [discriminate|].
  destruct (optional o args) as [[[rf ar] an]| | |]; cbn [pass] in H; try discriminate. destruct (to_int an); cbn [pass] in H; try discriminate.
  destruct (if rf then refine_all o lm (s_draw s) else (s_draw s, Ok tt)) as [ds r1] eqn:R.
  assert (L : length ds = length (s_draw s)).
  { destruct rf; [|inversion R; reflexivity]. rewrite <- (refine_len (s_draw s)), R. reflexivity. }
  destruct (uncaught r1); cbn [pass] in H; try discriminate.
  destruct (draw_links o (T o) lm (s_links s) ds) eqn:D; cbn [uncaught pass] in H; try discriminate.
  unfold draw_links in D. apply bind_ok in D. destruct D as (d1 & D & _). apply draw_links_layers in D. rewrite L in D. exact D.
Qed.
(** ** the arguments of generate_system *)
Lemma number_of : forall x v, as_number o (Some x) = Ok v <-> number x v.
Proof.
  intros x v. split; intro H.
  - destruct x; cbn in H; inversion H; subst; constructor.
  - inversion H; subst; reflexivity.
Qed.
Lemma optional_ok : forall args f, length args <= 3 -> (optional o args = Ok f <-> options args f).
Proof.
  intros args f L. split; intro H.
  - unfold optional in H. destruct args as [|a [|b [|c [|e args]]]]; cbn [nth_error] in H; [| | | |cbn in L; lia].
    + inversion H. constructor.
    + destruct a; cbn in H; inversion H; constructor.
    + destruct (as_number o (Some b)) eqn:B; [|destruct a; discriminate..]. apply number_of in B. destruct a; cbn in H; inversion H; constructor; exact B.
    + destruct (as_number o (Some c)) eqn:C; [|discriminate..]. apply number_of in C. cbn [bind] in H.
      destruct (as_number o (Some b)) eqn:B; [|destruct a; discriminate..]. apply number_of in B. destruct a; cbn in H; inversion H; constructor; assumption.
  - inversion H; subst; unfold optional; cbn [nth_error]; repeat match goal with K : number _ _ |- _ => apply number_of in K; rewrite K; cbn [bind]; clear K end; reflexivity.
Qed.
Lemma optional_bad : forall args, length args <= 3 -> (forall f, ~ options args f) -> optional o args = Throw "TypeError".
Proof.
  intros args L N. assert (C : forall x, (exists v, as_number o (Some x) = Ok v) \/ as_number o (Some x) = Throw "TypeError") by (intros []; cbn; eauto).
  assert (D : (exists f, optional o args = Ok f) \/ optional o args = Throw "TypeError"); [|destruct D as [[f D]|D]; [exfalso; apply (N f), optional_ok; auto|exact D]].
  unfold optional. destruct args as [|a [|b [|c [|x args]]]]; cbn [nth_error]; [..|cbn in L; lia].
  - left. eexists. reflexivity.
  - destruct a; cbn; eauto.
  - destruct (C b) as [[v ->]| ->]; cbn; [destruct a; cbn; eauto|auto].
  - destruct (C c) as [[w ->]| ->]; cbn [bind]; [|auto]. destruct (C b) as [[v ->]| ->]; cbn; [destruct a; cbn; eauto|auto].
Qed.
Lemma generate_types : forall args (s : sim), (forall f, ~ options args f) ->
  py_generate_system o lm below_inf triangulate to_int args s = (s, Throw "TypeError").
Proof.
  intros args s N. unfold py_generate_system. destruct (Nat.ltb_spec 3 (length args)) as [L|L]; [reflexivity|]. rewrite (optional_bad args L N). reflexivity.
Qed.
Lemma refine_all_ok : forall ds ds', refine_all o lm ds = (ds', Ok tt) <-> Forall2 (fun d d' => addRefiningPoints o lm (T o) d = (d', Ok tt)) ds ds'.
Proof.
  induction ds as [|d ds IH]; intros ds'; cbn [refine_all]; split; intro H.
  - inversion H. constructor.
  - inversion H. reflexivity.
  - destruct (addRefiningPoints o lm (T o) d) as [d1 [[]| | |]] eqn:E; try discriminate. destruct (refine_all o lm ds) as [l r] eqn:Q. inversion H; subst.
    constructor; [exact E|]. apply IH. reflexivity.
  - inversion H as [|d0 d1 l1 l2 E F]; subst. rewrite E. apply IH in F. rewrite F. reflexivity.
Qed.
Lemma generate_ok : forall args (s s' : sim) M ts vs, py_generate_system o lm below_inf triangulate to_int args s = (s', Ok (M, ts, vs)) <->
  exists refine area angle deg ds0 ds ms, options args (refine, area, angle) /\ to_int angle = Ok deg /\ refined lm refine (s_draw s) ds0 /\
    draw_links o (T o) lm (s_links s) ds0 = Ok ds /\ triangulate area deg ds = Some ms /\
    ml_system o (T o) (fun x => x) below_inf ms (s_links s) = Ok M /\ py_vertices o ms = Ok vs /\ ts = py_triangles o ms /\
    s' = mkSim ds (s_depths s) (Some ms) (s_links s).
Proof.
  intros args s s' M ts vs. unfold py_generate_system. destruct (Nat.ltb_spec 3 (length args)) as [L|L].
  { split; [discriminate|]. intros (refine & area & angle & deg & ds0 & ds & ms & O & _). inversion O; subst; cbn in L; lia. }
  split.
  - intro H. destruct (optional o args) as [[[rf ar] an]| | |] eqn:O; cbn [pass] in H; try discriminate. destruct (to_int an) as [deg| | |] eqn:TI; cbn [pass] in H; try discriminate.
    destruct (if rf then refine_all o lm (s_draw s) else (s_draw s, Ok tt)) as [ds0 r1] eqn:R.
    destruct r1 as [[]| | |]; cbn [uncaught pass] in H; try discriminate.
    destruct (draw_links o (T o) lm (s_links s) ds0) as [ds| | |] eqn:D; cbn [uncaught pass] in H; try discriminate.
    destruct (triangulate ar deg ds) as [ms|] eqn:Tr; [|discriminate]. inversion H as [[H1 H2]]. clear H.
    apply bind_ok in H2. destruct H2 as (M' & HM & H2). apply bind_ok in H2. destruct H2 as (vs' & HV & H2). inversion H2; subst.
    exists rf, ar, an, deg, ds0, ds, ms. split; [apply optional_ok; assumption|]. split; [exact TI|]. split.
    { unfold refined. destruct rf; [apply refine_all_ok; exact R|inversion R; reflexivity]. }
    split; [exact D|]. split; [exact Tr|]. split; [destruct (ml_system o (T o) (fun x => x) below_inf ms (s_links s)); cbn in HM; congruence|]. auto.
  - intros (rf & ar & an & deg & ds0 & ds & ms & O & TI & R & D & Tr & HM & HV & Ht & Hs). apply optional_ok in O; [|assumption]. rewrite O. cbn [pass]. rewrite TI. cbn [pass].
    assert (Q : (if rf then refine_all o lm (s_draw s) else (s_draw s, Ok tt)) = (ds0, Ok tt)).
    { unfold refined in R. destruct rf; [apply refine_all_ok; exact R|subst; reflexivity]. }
    rewrite Q. cbn [uncaught pass]. rewrite D. cbn [uncaught pass]. rewrite Tr, HM. cbn [uncaught bind]. rewrite HV. cbn [bind]. subst. reflexivity.
Qed.
(** ** exceptions that reach Python *)
Definition quiet {X} (r : res X) : Prop := forall e, r <> Throw e.
Lemma q_bind : forall X Y (r : res X) (k : X -> res Y), quiet r -> (forall x, quiet (k x)) -> quiet (x <- r ;; k x).
Proof. intros X Y [x|e|e|e] k H K e'; cbn; [apply K|exfalso; apply (H e); reflexivity|discriminate..]. Qed.
Lemma q_ok : forall X (x : X), quiet (Ok x). Proof. intros X x e. discriminate. Qed.
Lemma q_get : forall X (l : list X) i, quiet (get l i). Proof. intros X l i e. unfold get. destruct (nth_error l i); discriminate. Qed.
Lemma q_set : forall X (l : list X) i x, quiet (set l i x). Proof. intros X l i x e. unfold set. destruct (Nat.ltb _ _); discriminate. Qed.
Lemma q_uncaught : forall X (r : res X), quiet (uncaught r). Proof. intros X [x|e|e|e] e'; discriminate. Qed.
Lemma q_from : forall S n a (f : nat -> S -> res S) x, (forall i x, quiet (f i x)) -> quiet (forM_from n a f x).
Proof. intros S n. induction n as [|n IH]; intros a f x H; cbn [forM_from]; [apply q_ok|]. apply q_bind; [apply H|]. intro y. apply IH, H. Qed.
Lemma q_list : forall X S (l : list X) (f : X -> S -> res S) x, (forall i x, quiet (f i x)) -> quiet (forM_list l f x).
Proof. intros X S l. induction l as [|y l IH]; intros f x H; cbn [forM_list]; [apply q_ok|]. apply q_bind; [apply H|]. intro z. apply IH, H. Qed.
Lemma q_rows : forall V (ms : list (mesh o (T o))), quiet (voltage_rows o V ms).
Proof.
  intros V ms. apply q_list. intros [k [off m]] l. apply q_from. intros j x. apply q_bind; [apply q_get|intro]. apply q_bind; [apply q_get|intro]. apply q_set.
Qed.
Lemma q_vertices : forall (ms : list (mesh o (T o))), quiet (py_vertices o ms).
Proof. intros ms. apply q_list. intros om l. apply q_from. intros j x. apply q_bind; [apply q_get|intro]. apply q_set. Qed.
Lemma solve_raises : forall args (s : sim) e, py_solve o args s = Throw e <-> e = "TypeError"%string /\ forall y, args <> [PySystem y].
Proof.
  intros args s e. split.
  - intro H. assert (C : (exists y, args = [PySystem y]) \/ forall y, args <> [PySystem y]).
    { destruct args as [|[] [|b args]]; try (right; intros y0; discriminate). left. eauto. }
    destruct C as [[y ->]|C].
    + exfalso. revert H. cbn [py_solve]. destruct y as [M|]; [|discriminate]. destruct (s_mesh s) as [ms|]; [|discriminate].
      apply q_bind; [apply q_uncaught|intro]. apply q_bind; [apply q_uncaught|intro]. apply q_bind; [apply q_rows|intro]. apply q_ok.
    + split; [|exact C]. unfold py_solve in H. destruct args as [|[] [|b args]]; try (inversion H; reflexivity). exfalso. apply (C s0). reflexivity.
  - intros [-> C]. unfold py_solve. destruct args as [|[] [|b args]]; try reflexivity. exfalso. apply (C s0). reflexivity.
Qed.
Lemma generate_raises : forall args (s s' : sim) e, py_generate_system o lm below_inf triangulate to_int args s = (s', Throw e) ->
  s' = s /\ (e = "TypeError"%string /\ (forall f, ~ options args f) \/ exists refine area angle, options args (refine, area, angle) /\ to_int angle = Throw e).
Proof.
  intros args s s' e H. unfold py_generate_system in H. destruct (Nat.ltb_spec 3 (length args)) as [L|L].
  { inversion H; subst. split; [reflexivity|]. left. split; [reflexivity|]. intros f O. inversion O; subst; cbn in L; lia. }
  destruct (optional o args) as [[[rf ar] an]|e1|e1|e1] eqn:O; cbn [pass] in H; try discriminate.
  - assert (O' : options args (rf, ar, an)) by (apply optional_ok; assumption).
    destruct (to_int an) as [deg|e2|e2|e2] eqn:TI; cbn [pass] in H; try discriminate; [|inversion H; subst; split; [reflexivity|right; eauto 6]].
    exfalso. destruct (if rf then refine_all o lm (s_draw s) else (s_draw s, Ok tt)) as [ds0 r1].
    destruct r1 as [[]| | |]; cbn [uncaught pass] in H; try discriminate.
    destruct (draw_links o (T o) lm (s_links s) ds0) as [ds| | |]; cbn [uncaught pass] in H; try discriminate.
    destruct (triangulate ar deg ds) as [ms|]; [|discriminate]. inversion H as [[H1 H2]]. revert H2.
    apply q_bind; [apply q_uncaught|intro]. apply q_bind; [apply q_vertices|intro]. apply q_ok.
  - inversion H; subst. split; [reflexivity|]. left.
    assert (N : forall f, ~ options args f) by (intros f F; apply (optional_ok args f L) in F; congruence). split; [|exact N].
    rewrite (optional_bad args L N) in O. inversion O. reflexivity.
Qed.
End BindP.
