(** RFC 4648 Base64, independently of the code. *)
From Coq Require Import Arith List NArith Bool Ascii.
Import ListNotations.

(** The Base64 alphabet (RFC 4648, table 1). *)
Definition b64_char (v : N) : ascii :=
  if (v <? 26)%N then ascii_of_N (v + 65)            (* A-Z *)
  else if (v <? 52)%N then ascii_of_N (v - 26 + 97)  (* a-z *)
  else if (v <? 62)%N then ascii_of_N (v - 52 + 48)  (* 0-9 *)
  else if (v =? 62)%N then "+"%char else "/"%char.

(** The [k]-th six bits of three bytes read as a 24-bit number. *)
Definition sextet (k : nat) (a b c : N) : N :=
  ((a * 65536 + b * 256 + c) / 64 ^ N.of_nat (3 - k)) mod 64.

Fixpoint rfc4648 (l : list N) : list ascii :=
  match l with
  | [] => []
  | [a] => [b64_char (sextet 0 a 0 0); b64_char (sextet 1 a 0 0); "="%char; "="%char]
  | [a; b] => [b64_char (sextet 0 a b 0); b64_char (sextet 1 a b 0); b64_char (sextet 2 a b 0); "="%char]
  | a :: b :: c :: t =>
      b64_char (sextet 0 a b c) :: b64_char (sextet 1 a b c) ::
      b64_char (sextet 2 a b c) :: b64_char (sextet 3 a b c) :: rfc4648 t
  end.

Definition is_bytes (l : list N) : Prop := Forall (fun b => b < 256)%N l.
(** A vector of entries of [sz] bytes each. *)
Definition is_vector (sz : nat) (v : list (list N)) : Prop :=
  Forall (fun e => length e = sz /\ is_bytes e) v.
(** A vector of points of dimension [dim]. *)
Definition is_points (dim sz : nat) (pts : list (list (list N))) : Prop :=
  Forall (fun p => length p = dim /\ is_vector sz p) pts.

(** Number of [=] signs needed for [n] bytes. *)
Definition padding (n : nat) : nat := match n mod 3 with 0 => 0 | 1 => 2 | _ => 1 end.

(** ** Reading text *)

(** Value of a character: its position in the alphabet; 0 for the characters outside the
    alphabet, six ones for [=]. *)
Definition char_value (c : ascii) : N :=
  if Ascii.eqb c "="%char then 63
  else match find (fun i => Ascii.eqb (b64_char (N.of_nat i)) c) (seq 0 64) with
       | Some i => N.of_nat i
       | None => 0
       end.
(** The [i]-th byte of a text: eight of the twelve bits of the two characters that hold it, if the
    second one is not [=]. *)
Definition decoded_byte (s : list ascii) (i : nat) : N :=
  let k := 4 * (i / 3) + i mod 3 in
  if Ascii.eqb (nth (k + 1) s zero) "="%char then 0
  else ((char_value (nth k s zero) * 64 + char_value (nth (k + 1) s zero)) / 4 ^ N.of_nat (2 - i mod 3)) mod 256.
Definition is_ascii (s : list ascii) : Prop := Forall (fun c => nat_of_ascii c < 128) s.
(** The characters that complete a byte, and the byte they complete, lie inside [n] bytes. *)
Definition fits (s : list ascii) (n : nat) : Prop :=
  forall i, 4 * (i / 3) + i mod 3 + 1 < length s -> nth (4 * (i / 3) + i mod 3 + 1) s zero <> "="%char -> i < n.
