(** Model of the textual output of points and of [AlgoDiffType] values
    (src/point.hpp:174-190, src/utils/computational_differentiation/algo_diff_type.inc:200-205).

    An output stream is its text and its format state.  How a built-in number is written with a given
    precision is a parameter ([Printed]); a stream pads what it writes to its field width and resets the
    width.  Locale, [internal] adjustment, stream errors and [showpos]-like flags are not modelled. *)
From Coq Require Import Arith List ZArith Ascii String DecimalString.
From Verif Require Import Prelude Scalar ModelAD.
Import ListNotations.
Local Open Scope string_scope.

Record ostream := mkStream { os_text : string; os_width : Z; os_precision : Z; os_left : bool; os_fill : ascii }.
(** [std::ostringstream out{}] *)
Definition ostringstream : ostream := mkStream "" 0 6 false " "%char.
(** [<< std::setw(n)], [<< std::setprecision(n)] *)
Definition setw (n : Z) (os : ostream) : ostream := mkStream (os_text os) n (os_precision os) (os_left os) (os_fill os).
Definition setprecision (n : Z) (os : ostream) : ostream := mkStream (os_text os) (os_width os) n (os_left os) (os_fill os).

Fixpoint chars (n : nat) (c : ascii) : string := match n with O => "" | S m => String c (chars m c) end.
(** A formatted string of characters: padded to the field width, which is reset. *)
Definition put (s : string) (os : ostream) : ostream :=
  let pad := chars (Z.to_nat (os_width os) - String.length s) (os_fill os) in
  mkStream (os_text os ++ (if os_left os then s ++ pad else pad ++ s)) 0 (os_precision os) (os_left os) (os_fill os).

(** [os << x] *)
Class Printable (T : Type) := insert : T -> ostream -> ostream.
(** A built-in number: its characters depend on the precision of the stream. *)
Definition insert_number {T} (printed : Z -> T -> string) : Printable T := fun x os => put (printed (os_precision os) x) os.
(** [int]: decimal digits, whatever the precision *)
Definition decimal (x : Z) : string := NilZero.string_of_int (Z.to_int x).
#[export] Instance Printable_Z : Printable Z := insert_number (fun _ => decimal).
(** algo_diff_type.inc:200-205 *)
#[export] Instance Printable_AD {S} {P : Printable S} : Printable (adt S) := fun a os => insert (ad_v a) os.

Section Point.
Context {T : Type} {P : Printable T} {d : nat}.

Definition max_int : Z := 2147483647.
(** [output_precision + 2] in type [int] *)
Definition int_plus_2 (n : Z) : res Z := if (n + 2 <=? max_int)%Z then Ok (n + 2)%Z else UB.

(** src/point.hpp:180-190  toString *)
Definition toString (p : point T d) (output_precision : Z) : res string :=
  do w <- int_plus_2 output_precision;
  do x0 <- pget d p 0;
  let out := insert x0 (setprecision output_precision (setw w (put "[" ostringstream))) in
  do out <- for_up 1 (d - 1) (fun i out =>
    do w <- int_plus_2 output_precision;
    do x <- pget d p i;
    Ok (insert x (setprecision output_precision (setw w (put ", " out))))) out;
  Ok (os_text (put "]" out)).

(** src/point.hpp:174-178  operator<<, with the default argument of [toString] *)
Definition point_insert (p : point T d) (os : ostream) : res ostream :=
  do s <- toString p 6; Ok (put s os).
End Point.
