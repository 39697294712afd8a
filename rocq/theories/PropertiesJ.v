(** Properties C45-C49: Base64. *)
From Coq Require Import Ascii String Arith Lia NArith Bool List.
From Verif Require Import Prelude ModelBase64 SpecBase64 ClaimsJ.
Import ListNotations.
Local Open Scope nat_scope.

(** Two 4-byte integers, 258 and 4. *)
Definition ex_ints : list (list N) := [[2; 1; 0; 0]; [4; 0; 0; 0]]%N.
Ltac bytes := repeat first [apply Forall_nil | apply Forall_cons; [first [reflexivity | split; [reflexivity|]]|]].

(** C45: the round trip, for entries of at least three bytes. The bytes behind the vector are
    arbitrary. *)
Theorem C45_round_trip : forall (sz : nat) (v : list (list N)) (rest : list N),
  3 <= sz -> is_vector sz v -> is_bytes rest -> padding (sz * length v) <= length rest ->
  exists s, Encode sz v rest = Ok s /\ Decode sz s = Ok v.
Proof. exact c45_round_trip. Qed.
Print Assumptions C45_round_trip.
Example C45_case : is_vector 4 ex_ints /\ is_bytes [255]%N /\ padding (4 * length ex_ints) = 1 /\
  Encode 4 ex_ints [255]%N = Ok (list_ascii_of_string "AgEAAAQAAAD=") /\
  Decode 4 (list_ascii_of_string "AgEAAAQAAAD=") = Ok ex_ints.
Proof. split; [bytes|]. split; [bytes|]. repeat split; vm_compute; reflexivity. Qed.

(** C46: the encoding. *)
(** Missing from the full property: the low bits of the last character before the padding are
    those of the memory behind the vector instead of zero (refuted by the next theorem). *)
Theorem C46_encoding_partial : forall (sz : nat) (v : list (list N)) (rest : list N),
  is_vector sz v -> is_bytes rest -> padding (sz * length v) <= length rest ->
  let n := sz * length v in
  exists s, Encode sz v rest = Ok s /\ length s = 4 * ((n + 2) / 3) /\
    (forall i, i < length s - padding n -> exists x, (x < 64)%N /\ nth i s zero = b64_char x) /\
    (forall i, length s - padding n <= i < length s -> nth i s zero = "="%char) /\
    firstn (n / 3 * 4) s = firstn (n / 3 * 4) (rfc4648 (concat v)) /\
    (n mod 3 = 0 \/ (forall i, i < padding n -> nth i rest 0%N = 0%N) -> s = rfc4648 (concat v)).
Proof. exact c46_encoding_partial. Qed.
Print Assumptions C46_encoding_partial.
Theorem C46_encoding_refuted : exists (sz : nat) (v : list (list N)) (rest : list N) (s : list ascii),
  is_vector sz v /\ is_bytes rest /\ Encode sz v rest = Ok s /\ s <> rfc4648 (concat v).
Proof. exact c46_encoding_refuted. Qed.
Print Assumptions C46_encoding_refuted.
Example C46_case : rfc4648 [77; 97; 110; 77; 97; 77]%N = list_ascii_of_string "TWFuTWFN" /\
  rfc4648 [77]%N = list_ascii_of_string "TQ==" /\ rfc4648 [77; 97]%N = list_ascii_of_string "TWE=" /\
  Encode 3 [[77; 97; 110]; [77; 97; 77]]%N [] = Ok (list_ascii_of_string "TWFuTWFN") /\
  Encode 1 [[77]]%N [0; 0]%N = Ok (list_ascii_of_string "TQ==").
Proof. repeat split; vm_compute; reflexivity. Qed.

(** C47: reads outside the vector. *)
(** Missing from the full property: sizes that are not a multiple of three bytes, for which the
    function always reads outside the vector. *)
Theorem C47_reads_partial : forall (sz : nat) (v : list (list N)),
  is_vector sz v ->
  (sz * length v mod 3 = 0 -> exists s, Encode sz v [] = Ok s) /\
  (sz * length v mod 3 <> 0 -> Encode sz v [] = UB).
Proof. exact c47_reads_partial. Qed.
Print Assumptions C47_reads_partial.
Theorem C47_reads_refuted : exists (sz : nat) (v : list (list N)), is_vector sz v /\ Encode sz v [] = UB.
Proof. exact c47_reads_refuted. Qed.
Print Assumptions C47_reads_refuted.
Example C47_case : is_vector 4 (ex_ints ++ ex_ints ++ ex_ints) /\
  (4 * length (ex_ints ++ ex_ints ++ ex_ints)) mod 3 = 0 /\ 4 * length ex_ints mod 3 <> 0.
Proof. split; [bytes|]. split; [reflexivity|]. vm_compute. discriminate. Qed.

(** C48: small entry types. *)
(** Missing from the full property: vectors whose padding is at least one entry; they come back with
    additional zero entries. *)
Theorem C48_small_partial : forall (sz : nat) (v : list (list N)) (rest : list N),
  0 < sz -> is_vector sz v -> is_bytes rest -> padding (sz * length v) <= length rest ->
  exists s, Encode sz v rest = Ok s /\
    Decode sz s = Ok (v ++ repeat (repeat 0%N sz) (padding (sz * length v) / sz)) /\
    (Decode sz s = Ok v <-> padding (sz * length v) < sz).
Proof. exact c48_small_partial. Qed.
Print Assumptions C48_small_partial.
Theorem C48_small_refuted : (exists (v : list (list N)) (s : list ascii), is_vector 1 v /\ Encode 1 v [0; 0]%N = Ok s /\ Decode 1 s <> Ok v) /\
  (exists (v : list (list N)) (s : list ascii), is_vector 2 v /\ Encode 2 v [0; 0]%N = Ok s /\ Decode 2 s <> Ok v).
Proof. exact c48_small_refuted. Qed.
Print Assumptions C48_small_refuted.
Example C48_case : is_vector 2 [[7; 0]]%N /\
  Decode 2 (list_ascii_of_string "BwA=") = Ok [[7; 0]]%N /\
  Decode 1 (list_ascii_of_string "Bw==") = Ok [[7]; [0]; [0]]%N.
Proof. split; [bytes|]. split; vm_compute; reflexivity. Qed.

(** C49: points. *)
Theorem C49_points : forall (dim sz : nat) (pts : list (list (list N))) (rest : list N),
  1 <= dim -> 3 <= sz -> is_points dim sz pts -> is_bytes rest -> padding (sz * (dim * length pts)) <= length rest ->
  exists s, Encode_points dim sz pts rest = Ok s /\ Decode_points dim sz s = Ok pts.
Proof. exact c49_points. Qed.
Print Assumptions C49_points.
Theorem C49_decode : forall (dim sz : nat) (s : list ascii) (data : list (list N)),
  1 <= dim -> Decode sz s = Ok data ->
  (length data mod dim = 0 -> exists pts, Decode_points dim sz s = Ok pts /\ concat pts = data /\
     Forall (fun p => length p = dim) pts) /\
  (length data mod dim <> 0 -> Decode_points dim sz s = AssertFail).
Proof. exact c49_decode. Qed.
Print Assumptions C49_decode.
Example C49_case : is_points 2 4 [ex_ints; ex_ints] /\ padding (4 * (2 * 2)) = 2 /\
  Encode_points 2 4 [ex_ints] [0]%N = Ok (list_ascii_of_string "AgEAAAQAAAA=") /\
  Decode_points 2 4 (list_ascii_of_string "AgEAAAQAAAA=") = Ok [ex_ints] /\
  Decode 4 (list_ascii_of_string "AgEAAA==") = Ok [[2; 1; 0; 0]]%N /\
  Decode_points 2 4 (list_ascii_of_string "AgEAAA==") = AssertFail.
Proof. split; [bytes|]. repeat split; vm_compute; reflexivity. Qed.
