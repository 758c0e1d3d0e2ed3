(** Specification of the merge of the bodies that meet at vertices, C118. *)
From Coq Require Import Relations.
From Verif Require Import Base Mesh SpecMesh.
Set Implicit Arguments.
Open Scope Z_scope.

(** Vertex [n] is on an edge of a face of body [v]. *)
Definition touches (m : mesh) (n v : Z) : Prop := exists e s, VE m n e /\ ES m e s /\ SV m s v.
(** Two bodies meet at a vertex of the list. *)
Definition meet (m : mesh) (l : list Z) (u w : Z) : Prop := u <> 0 /\ w <> 0 /\ exists n, In n l /\ touches m n u /\ touches m n w.
(** They are joined by a chain of such meetings. *)
Definition chained (m : mesh) (l : list Z) : Z -> Z -> Prop := clos_refl_sym_trans Z (meet m l).
