(** Property C52.  Vocabulary in OwnSpec.v, model in OwnModel.v. *)
From Coq Require Import String.
From Coq Require Import List Arith Lia Bool Permutation.
From Verif Require Import Base OwnModel OwnSpec Own_proofs.
Import ListNotations.

(** no history in which meshes are copied only while empty frees a buffer twice or uses a freed one.  Missing for the claim:
    copies of meshed objects (C52_refuted) *)
Theorem C52_safe_partial : forall cs, copies_only_empty_meshes cs ->
  exec_all cs heap0 <> UB "double free" /\ exec_all cs heap0 <> UB "use after free".
Proof. exact own_safe. Qed.
Print Assumptions C52_safe_partial.
(** if moreover no mesh is triangulated twice, every buffer has been freed, once, when no mesh is left.  Missing for the
    claim: meshes triangulated again (C52_leak_refuted) *)
Theorem C52_freed_partial : forall cs h, copies_only_empty_meshes cs -> triangulates_once cs -> exec_all cs heap0 = Ok h -> objects h = [] ->
  Permutation (freed h) (seq 0 (allocated h)).
Proof. exact own_all_freed. Qed.
Print Assumptions C52_freed_partial.
(** in every state: a copy of a mesh with a buffer, then both destroyed *)
Theorem C52_copy : forall h x y p b, x <> y -> lookup x (objects h) = Some p -> lookup y (objects h) = None -> In (Some b) p ->
  exec_all [Copy y x; Destroy x; Destroy y] h = UB "double free".
Proof. exact own_copy_destroy. Qed.
Print Assumptions C52_copy.

(** the buffers of a triangulation with the switches of mesh(): points, markers, triangles, attributes, segments, markers *)
Definition usual : list bool := [true; false; true; true; true; false; true; true; false; false; false].
(** *** claim: every buffer is freed exactly once *)
Theorem C52_refuted : exists cs, exec_all cs heap0 = UB "double free".
Proof. exists [Create 0; Triangulate 0 usual; Copy 1 0; Destroy 1; Destroy 0]. reflexivity. Qed.
Print Assumptions C52_refuted.
Theorem C52_use_refuted : exists cs, exec_all cs heap0 = UB "use after free".
Proof. exists [Create 0; Triangulate 0 usual; Copy 1 0; Destroy 1; Access 0 3]. reflexivity. Qed.
Print Assumptions C52_use_refuted.
(** a mesh triangulated twice: the buffers of the first triangulation are never freed *)
Theorem C52_leak_refuted : exists cs h, exec_all cs heap0 = Ok h /\ objects h = [] /\ allocated h = 12 /\ length (freed h) = 6.
Proof. exists [Create 0; Triangulate 0 usual; Triangulate 0 usual; Destroy 0]. eexists. split; [vm_compute; reflexivity|]. split; [|split]; reflexivity. Qed.
Print Assumptions C52_leak_refuted.

(** *** the life of a simulation with two layers: the vector of meshes grows, both layers are triangulated, read and destroyed *)
Definition two_layers : list op :=
  push_back 0 1 [] [] ++ push_back 2 3 [1] [4] ++ [Triangulate 4 usual; Triangulate 3 usual; Access 3 0; Access 4 3; Destroy 4; Destroy 3].
Ltac no_more := let Q := fresh in intros Q; repeat (destruct Q as [Q|Q]; [discriminate Q|]); exact Q.
Ltac peel b E tac :=
  let c := fresh "c" in
  destruct b as [|c b]; [try discriminate E; injection E as <- <- <-; tac|injection E as <- E; first [peel b E tac|destruct b; discriminate E]].
Example two_layers_ok : copies_only_empty_meshes two_layers /\ triangulates_once two_layers.
Proof.
  split; intros before x out after E; unfold two_layers in E; cbn in E.
  - intros y. peel before E ltac:(idtac); (split; [no_more|split; no_more]).
  - intros out'. peel before E ltac:(idtac); no_more.
Qed.
Example two_layers_freed : exists h, exec_all two_layers heap0 = Ok h /\ objects h = [] /\ allocated h = 12 /\ length (freed h) = 12.
Proof. eexists. split; [vm_compute; reflexivity|]. split; [|split]; reflexivity. Qed.
(** the constructor of a simulation with one conductor *)
Example one_layer_freed : exists h, exec_all (constructor 0 1 ++ [Triangulate 0 usual; Access 0 0; Destroy 0]) heap0 = Ok h /\ objects h = [] /\ length (freed h) = 6.
Proof. eexists. split; [vm_compute; reflexivity|]. split; reflexivity. Qed.
