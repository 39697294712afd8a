(** Property C88: textual output. *)
From Coq Require Import Arith Lia List ZArith Ascii String.
From Verif Require Import Prelude Scalar ModelAD ModelText SpecText ClaimsText.
Import ListNotations.
Local Open Scope string_scope.

(** C88: textual output of points and of [AlgoDiffType] values. *)
Theorem C88_text : forall T (printed : Z -> T -> string) d (p : point T d) prec, 0 < d -> (prec + 2 <= 2147483647)%Z ->
  toString (P := insert_number printed) p prec =
    Ok (bracketed (map (fun x => right_aligned (Z.to_nat (prec + 2)) (printed prec x)) (plist d p))).
Proof. exact c88_text. Qed.
Print Assumptions C88_text.
Theorem C88_length : forall T (printed : Z -> T -> string) d (p : point T d) prec, 0 < d -> (0 <= prec + 2 <= 2147483647)%Z ->
  (forall x, In x (plist d p) -> (Z.of_nat (String.length (printed prec x)) <= prec + 2)%Z) ->
  exists s, toString (P := insert_number printed) p prec = Ok s /\
    Z.of_nat (String.length s) = (Z.of_nat d * (prec + 4))%Z.
Proof. exact c88_length. Qed.
Print Assumptions C88_length.
Theorem C88_no_coordinate : forall T (P : Printable T) (p : point T 0) prec, toString p prec = UB.
Proof. exact c88_no_coordinate. Qed.
Print Assumptions C88_no_coordinate.
Theorem C88_read_back : forall T (printed : Z -> T -> string) d e (p : point T d) (q : point T e) prec s, 0 < d -> 0 < e ->
  (forall x, In x (plist d p) -> plain (printed prec x)) -> (forall x, In x (plist e q) -> plain (printed prec x)) ->
  toString (P := insert_number printed) p prec = Ok s -> toString (P := insert_number printed) q prec = Ok s ->
  d = e /\ map (printed prec) (plist d p) = map (printed prec) (plist e q).
Proof. exact c88_read_back. Qed.
Print Assumptions C88_read_back.
Theorem C88_integers : forall d (p q : point Z d) prec s, 0 < d ->
  toString p prec = Ok s -> toString q prec = Ok s -> p = q.
Proof. exact c88_integers. Qed.
Print Assumptions C88_integers.
Theorem C88_stream : forall T (printed : Z -> T -> string) d (p : point T d) os, 0 < d ->
  let s := bracketed (map (fun x => right_aligned 8 (printed 6%Z x)) (plist d p)) in
  let fill := string_of_list_ascii (repeat (os_fill os) (Z.to_nat (os_width os) - String.length s)) in
  point_insert (P := insert_number printed) p os =
    Ok (mkStream (os_text os ++ if os_left os then s ++ fill else fill ++ s) 0 (os_precision os) (os_left os) (os_fill os)).
Proof. exact c88_stream. Qed.
Print Assumptions C88_stream.
Theorem C88_AD : forall S (printed : Z -> S -> string) (a : adt S) os,
  let s := printed (os_precision os) (ad_v a) in
  let fill := string_of_list_ascii (repeat (os_fill os) (Z.to_nat (os_width os) - String.length s)) in
  insert (Printable := Printable_AD (P := insert_number printed)) a os =
    mkStream (os_text os ++ if os_left os then s ++ fill else fill ++ s) 0 (os_precision os) (os_left os) (os_fill os).
Proof. exact c88_AD. Qed.
Print Assumptions C88_AD.
Theorem C88_AD_point : forall S (printed : Z -> S -> string) d (p : point (adt S) d) (q : point S d) prec,
  map ad_v (plist d p) = plist d q ->
  toString (P := Printable_AD (P := insert_number printed)) p prec = toString (P := insert_number printed) q prec.
Proof. exact c88_AD_point. Qed.
Print Assumptions C88_AD_point.
(** Integer points, alone, in a left-adjusted field and with a small precision; a number with a derivative. *)
Example C88_case :
  let p : point Z 3 := (1, (-20, (300, tt)))%Z in
  let os := mkStream "p = " 35 2 true "."%char in
  toString p 6 = Ok "[       1,      -20,      300]" /\
  toString p 1 = Ok "[  1, -20, 300]" /\ toString p (-7) = Ok "[1, -20, 300]" /\
  point_insert p os = Ok (mkStream "p = [       1,      -20,      300]....." 0 2 true "."%char) /\
  insert (mkADT 42%Z [1%Z; 7%Z]) (mkStream "" 5 6 false "0"%char) = mkStream "00042" 0 6 false "0"%char /\
  plain (decimal (-20)).
Proof.
  intros p os. do 5 (split; [reflexivity|]). apply decimal_plain.
Qed.
