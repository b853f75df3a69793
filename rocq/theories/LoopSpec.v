(* Vocabulary for the theorems about the triangulation loops. *)
From Verif Require Import Base GeomModel BdryModel AdvanceModel AdvanceSpec.

(* two states with the same front, elements, interior edges and area; the second
   one may know more vertices, the old ones are where they were *)
Definition unchanged (st st' : mstate) : Prop :=
  ms_front st' = ms_front st /\ generated st' = generated st /\ ms_quads st' = ms_quads st /\
  ms_intr st' = ms_intr st /\ ms_area st' = ms_area st /\
  (forall v, (v < ms_nv st)%nat -> ms_pos st' v = ms_pos st v /\ ms_onf st' v = ms_onf st v).

(* a way to try to create an element on an edge of the front was tried for every
   edge of the front, with the mesh as it is, and failed *)
Definition all_failed (try : mstate -> nat -> outcome (mstate * bool)) (st : mstate) : Prop :=
  forall e, In e (ms_front st) -> exists s s1, unchanged s st /\ unchanged s1 st /\
    try s (be_id e) = Ok (s1, false).
