(** What a build without assertions has to do with a debug build. *)
From Verif Require Import Prelude.

(** Unless an assertion fails, both builds behave in the same way. *)
Definition obeys {A} (debug release : res A) : Prop := debug <> AssertFail -> release = debug.
