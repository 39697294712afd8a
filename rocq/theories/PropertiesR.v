(** Property C68: decoding arbitrary Base64 text. *)
From Coq Require Import Arith Lia List NArith Bool Ascii.
From Verif Require Import Prelude ModelBase64 SpecBase64 ClaimsR.
Import ListNotations.

(** C68: text from any source. *)
Theorem C68_assert : forall (sz : nat) (s : list ascii), length s mod 4 <> 0 -> Decode sz s = AssertFail.
Proof. exact c68_assert. Qed.
Print Assumptions C68_assert.
(** Missing from the full property: text that completes more bytes than the vector has (the call
    writes behind the vector), and text with characters from 128 on. *)
Theorem C68_decode_partial : forall (sz : nat) (s : list ascii), 0 < sz -> length s mod 4 = 0 ->
  let n := length s / 4 * 3 / sz in
  (is_ascii s /\ fits s (n * sz) -> exists v, Decode sz s = Ok v /\ length v = n /\ is_vector sz v /\
     forall j k, j < n -> k < sz -> nth k (nth j v []) 0%N = decoded_byte s (j * sz + k)) /\
  (~ (is_ascii s /\ fits s (n * sz)) -> Decode sz s = UB).
Proof. exact c68_decode_partial. Qed.
Print Assumptions C68_decode_partial.
Theorem C68_overflow_refuted : exists (sz : nat) (s : list ascii),
  0 < sz /\ length s mod 4 = 0 /\ (forall c, In c s -> exists x, (x < 64)%N /\ c = b64_char x) /\ Decode sz s = UB.
Proof. exact c68_overflow_refuted. Qed.
Print Assumptions C68_overflow_refuted.
Theorem C68_invalid_refuted : exists (sz : nat) (s : list ascii) (v : list (list N)),
  Decode sz s = Ok v /\ exists c, In c s /\ c <> "="%char /\ forall x, (x < 64)%N -> c <> b64_char x.
Proof. exact c68_invalid_refuted. Qed.
Print Assumptions C68_invalid_refuted.
Theorem C68_standard : forall (sz : nat) (v : list (list N)), 0 < sz -> is_vector sz v ->
  Decode sz (rfc4648 (concat v)) = Ok (v ++ repeat (repeat 0%N sz) (padding (sz * length v) / sz)).
Proof. exact c68_standard. Qed.
Print Assumptions C68_standard.
(** "SGk=" is "Hi"; "SGkh" does not fit into entries of two bytes. *)
Example C68_case :
  let s := ["S"; "G"; "k"; "="]%char in let t := ["S"; "G"; "k"; "h"]%char in
  is_ascii s /\ fits s 2 /\ Decode 2 s = Ok [[72; 105]]%N /\ decoded_byte s 0 = 72%N /\ decoded_byte s 1 = 105%N /\
  is_ascii t /\ ~ fits t 2 /\ Decode 2 t = UB /\ Decode 3 t = Ok [[72; 105; 33]]%N /\
  rfc4648 (concat [[72; 105; 33]]%N) = t.
Proof.
  cbv zeta. split; [repeat constructor|]. split.
  - intros i Hi HE. simpl length in Hi. destruct i as [|[|[|i]]]; [lia|lia| |].
    + exfalso. apply HE. reflexivity.
    + exfalso. pose proof (Nat.div_mod (S (S (S i))) 3 ltac:(lia)).
      pose proof (Nat.mod_upper_bound (S (S (S i))) 3 ltac:(lia)). lia.
  - do 3 (split; [reflexivity|]). split; [repeat constructor|]. split.
    + intros H. specialize (H 2). simpl in H. assert (2 < 2) by (apply H; [lia|discriminate]). lia.
    + repeat split; reflexivity.
Qed.
