(** Model of src/utils/base64.hpp.

    A byte is an [N] below 256, a C++ object of trivially copyable type is the list of its bytes
    (its object representation), a [std::vector<T>] is the list of its entries, a [std::string]
    the list of its characters.

    Simplifications: sizes are natural numbers (the code uses 64-bit unsigned numbers);
    [&data_vector[0]] of an empty vector is taken to be harmless as long as nothing is read
    through it. *)
From Coq Require Import Arith List NArith Bool Ascii String.
From Verif Require Import Prelude.
Import ListNotations.
Local Open Scope nat_scope.
Local Notation length := List.length.
Local Notation concat := List.concat.

(** src/utils/base64.hpp:51-56 [char_encode_table] *)
Definition char_encode_table : list ascii :=
  list_ascii_of_string "ABCDEFGHIJKLMNOPQRSTUVWXYZabcdefghijklmnopqrstuvwxyz0123456789+/".

(** src/utils/base64.hpp:65-72 [ReverseCharEncodeTable_] *)
Definition ReverseCharEncodeTable : res (list N) :=
  for_up 0 (length char_encode_table) (fun i t =>
    do c <- get char_encode_table i;
    set t (nat_of_ascii c) (N.of_nat i)) (repeat 0%N 256).

(** src/utils/base64.hpp:222-223: [char] is signed, so [static_cast<unsigned>] sends the
    characters from 128 on out of the range of the table. *)
Definition decode_char (table : list N) (c : ascii) : res N :=
  if nat_of_ascii c <? 128 then get table (nat_of_ascii c) else UB.

(** src/utils/base64.hpp:110-133: one pass of the loop. [mem] is the readable memory from the
    start of the vector on, [n] is [minimum_n_bytes_required]. *)
Definition encode_group (mem : list N) (n : nat) (g : nat) (s : list ascii) : res (list ascii) :=
  let bi := g * 3 in
  do b0 <- (if bi <? n then get mem (bi + 0) else Ok 0%N);
  do b1 <- (if bi <? n then get mem (bi + 1) else Ok 0%N);
  do b2 <- (if bi <? n then get mem (bi + 2) else Ok 0%N);
  do c0 <- get char_encode_table (N.to_nat (N.shiftr (N.land b0 0xfc) 2));
  do s <- set s (g * 4 + 0) c0;
  do c1 <- get char_encode_table
    (N.to_nat (N.shiftl (N.land b0 0x03) 4 + N.shiftr (N.land b1 0xf0) 4));
  do s <- set s (g * 4 + 1) c1;
  do c2 <- get char_encode_table
    (N.to_nat (N.shiftl (N.land b1 0x0f) 2 + N.shiftr (N.land b2 0xc0) 6));
  do s <- set s (g * 4 + 2) c2;
  do c3 <- get char_encode_table (N.to_nat (N.shiftl (N.land b2 0x3f) 0));
  set s (g * 4 + 3) c3.

(** src/utils/base64.hpp:86-141 [Encode]; [sz] is [sizeof(BaseType)], [rest] the readable memory
    that follows the vector ([[]]: nothing but the vector may be read). *)
Definition Encode (sz : nat) (v : list (list N)) (rest : list N) : res (list ascii) :=
  let mem := concat v ++ rest in
  let n := sz * length v in
  let pad := (3 - n mod 3) mod 3 in
  let groups := (n + pad) / 3 in
  do s <- for_up 0 groups (encode_group mem n) (resize zero [] (groups * 4));
  for_up 0 pad (fun i s => set s (groups * 4 - i - 1) "="%char) s.

(** src/utils/base64.hpp:147-158 [Encode] of a vector of points. *)
Definition Encode_points (dim sz : nat) (pts : list (list (list N))) (rest : list N) : res (list ascii) :=
  do flat <- for_up 0 (length pts) (fun i flat =>
      for_up 0 dim (fun j flat =>
        do p <- get pts i;
        do x <- get p j;
        set flat (i * dim + j) x) flat)
    (repeat (repeat 0%N sz) (dim * length pts));
  Encode sz flat rest.

(** The entries stored in a byte array. *)
Definition entries_of (sz n : nat) (bytes : list N) : list (list N) :=
  map (fun i => firstn sz (skipn (i * sz) bytes)) (seq 0 n).

(** src/utils/base64.hpp:217-240: one pass of the loop. *)
Definition decode_group (table : list N) (s : list ascii) (g : nat) (out : list N) : res (list N) :=
  let bi := g * 4 in
  do buffer <- mapM (fun i =>
    do c <- get s (bi + i);
    if Ascii.eqb c "="%char then Ok 255%N else decode_char table c) [0; 1; 2; 3];
  do x0 <- get buffer 0; do x1 <- get buffer 1; do x2 <- get buffer 2; do x3 <- get buffer 3;
  do out <- (if N.eqb x1 255 then Ok out
             else set out (g * 3) ((N.shiftl (N.land x0 0x3f) 2 + N.shiftr (N.land x1 0x30) 4) mod 256)%N);
  do out <- (if N.eqb x2 255 then Ok out
             else set out (g * 3 + 1) ((N.shiftl (N.land x1 0x0f) 4 + N.shiftr (N.land x2 0x3c) 2) mod 256)%N);
  (if N.eqb x3 255 then Ok out
   else set out (g * 3 + 2) ((N.shiftl (N.land x2 0x03) 6 + N.shiftr (N.land x3 0x3f) 0) mod 256)%N).

(** src/utils/base64.hpp:197-242 [Decode] *)
Definition Decode (sz : nat) (s : list ascii) : res (list (list N)) :=
  do _ <- assert_ (length s mod 4 =? 0);
  let groups := length s / 4 in
  let n_out := groups * 3 / sz in
  do table <- ReverseCharEncodeTable;
  do out <- for_up 0 groups (decode_group table s) (repeat 0%N (n_out * sz));
  Ok (entries_of sz n_out out).

(** src/utils/base64.hpp:161-189 [Decode] into a vector of points. *)
Definition Decode_points (dim sz : nat) (s : list ascii) : res (list (list (list N))) :=
  do data <- Decode sz s;
  let n := length data / dim in
  do _ <- assert_ (length data mod dim =? 0);
  for_up 0 n (fun i pts =>
    for_up 0 dim (fun j pts =>
      do x <- get data (i * dim + j);
      do p <- get pts i;
      do p <- set p j x;
      set pts i p) pts)
    (repeat (repeat (repeat 0%N sz) dim) n).
