(** Property theorems C20, C21: the VLQ codec of source maps. *)
From Verif Require Import Bytes Source Vlq VlqSpec VlqProofs.

(** ** C20 *)
(** Round trip, and agreement with the independent decoder [vlqSpec]. *)
Theorem C20_vlq_round_trip : forall v tail, Z.abs v < 1073741824 ->
  vlqDecode (vlqEncode v ++ tail) = Some (v, Z.of_nat (length (vlqEncode v))) /\
  vlqSpec (vlqEncode v ++ tail) = Some (v, tail).
Proof. exact C20_lemma. Qed.
Print Assumptions C20_vlq_round_trip.

(** ** C21 *)
(** The property asks for the round trip on every int32; it holds exactly for
    magnitudes below 2^30. *)
Theorem C21_vlq_exact_range : forall v, -2147483648 <= v < 2147483648 ->
  (vlqDecode (vlqEncode v) = Some (v, Z.of_nat (length (vlqEncode v))) <-> Z.abs v < 1073741824).
Proof. exact C21_lemma. Qed.
Print Assumptions C21_vlq_exact_range.

Theorem C21_vlq_int32_refuted : exists v, -2147483648 <= v < 2147483648 /\
  vlqEncode v = B "g" /\ vlqDecode (vlqEncode v) = Some (0, 1).
Proof. exact C21_refuted_lemma. Qed.
Print Assumptions C21_vlq_int32_refuted.

Example C20_sample : Z.abs (-1073741823) < 1073741824 /\ vlqEncode (-1073741823) = B "//////B".
Proof. vm_compute. auto. Qed.
