(** What the textual output of a point should be: the coordinates, right-aligned, between brackets and
    separated by commas. *)
From Coq Require Import Arith List ZArith Ascii String.
Import ListNotations.
Local Open Scope string_scope.

Definition spaces (n : nat) : string := string_of_list_ascii (repeat " "%char n).
Definition right_aligned (w : nat) (s : string) : string := spaces (w - length s) ++ s.
Definition bracketed (fields : list string) : string := "[" ++ concat ", " fields ++ "]".
(** Characters of a number: no blank and no comma. *)
Definition plain (s : string) : Prop := Forall (fun c => c <> " "%char /\ c <> ","%char) (list_ascii_of_string s).
