(** What the messages of the logger look like and where they go. *)
From Coq Require Import Ascii String NArith Bool List.
From Verif Require Import ModelLogger.
Import ListNotations.
Local Open Scope string_scope.

Inductive severity := SevWarning | SevUserInfo | SevLogging | SevExtended | SevError.
Inductive file := LogFile | WarningFile | ErrorFile.

Definition message (k : severity) (text : string) : call :=
  match k with
  | SevWarning => CWarning text | SevUserInfo => CUserInfo text | SevLogging => CLogging text
  | SevExtended => CExtended text | SevError => CError text
  end.
(** Number of the bit (1 = 2^0, 2 = 2^1, ...) that enables the console output. *)
Definition console_bit (k : severity) : N :=
  match k with SevUserInfo => 0 | SevError => 1 | SevWarning => 2 | SevLogging => 3 | SevExtended => 4 end.
Definition time_bit : N := 5.
Definition file_of (k : severity) : file :=
  match k with SevWarning => WarningFile | SevError => ErrorFile | _ => LogFile end.
Definition file_eqb (f g : file) : bool :=
  match f, g with LogFile, LogFile | WarningFile, WarningFile | ErrorFile, ErrorFile => true | _, _ => false end.
Definition file_bit (f : file) : N := match f with WarningFile => 6 | ErrorFile => 7 | LogFile => 8 end.

Definition label (k : severity) : string :=
  match k with SevWarning => "warning" | SevUserInfo => "user info" | SevError => "error" | _ => "log" end.
Definition file_label (k : severity) : string :=
  match k with SevWarning => "warning" | SevError => "error" | _ => "user info" end.
(** ANSI colour code *)
Definition colour (k : severity) : string :=
  match k with SevWarning => "33" | SevUserInfo => "34" | SevLogging => ";0" | SevExtended => "32" | SevError => "31" end.
Definition esc (code : string) : string := String (ascii_of_N 27) ("[" ++ code ++ "m").
Definition coloured (code text : string) : string := esc code ++ text ++ esc "0".
Definition right_aligned (width : nat) (s : string) : string :=
  fold_right append s (repeat " " (width - String.length s)).
Definition stamp (level : N) (now : string) : string := if N.testbit level time_bit then "[" ++ now ++ "]" else "".
Definition eol : string := String (ascii_of_N 10) "".

Definition text_for_console (name code : string) (level : N) (now text : string) : string :=
  "[" ++ right_aligned 20 (coloured code name) ++ "]" ++ stamp level now ++ " : " ++ coloured code text ++ eol.
Definition text_for_file (name : string) (level : N) (now text : string) : string :=
  "[" ++ right_aligned 10 name ++ "]" ++ stamp level now ++ " : " ++ text ++ eol.

Definition stream_of (f : file) (s : logger) : stream :=
  match f with LogFile => log_stream s | WarningFile => warning_stream s | ErrorFile => error_stream s end.
(** Contents of a log file, empty if it does not exist. *)
Definition file_contents (f : file) (s : logger) : string :=
  match contents (stream_of f s) with Some c => c | None => "" end.

(** The output level after a history. *)
Definition call_level (c : call) (level : N) : N :=
  match c with
  | CSet l => (l mod 2 ^ 32)%N
  | CSetList ls => fold_right N.lor 0%N (map level_code ls)
  | _ => level
  end.
(** A terminating error is raised while the bit of file [f] is set. *)
Fixpoint terminates_with (f : file) (h : list event) (level : N) : bool :=
  match h with
  | [] => false
  | (c, _, _) :: h =>
      match c with CTerminate _ => N.testbit level (file_bit f) | _ => false end
      || terminates_with f h (call_level c level)
  end.

(** What one call prints on the console. *)
Definition console_entry (enabled : bool) (c : call) (level : N) (now : string) : string :=
  let say k text :=
    if enabled && N.testbit level (console_bit k) then text_for_console (label k) (colour k) level now text else "" in
  match c with
  | CSet _ | CSetList _ => ""
  | CWarning t => say SevWarning t
  | CUserInfo t => say SevUserInfo t
  | CLogging t => say SevLogging t
  | CExtended t => say SevExtended t
  | CError t => say SevError t
  | CTerminate t =>
      if N.testbit level (console_bit SevError) then text_for_console "crit. error" "31" level now t else ""
  end.
Fixpoint console_text (enabled : bool) (h : list event) (level : N) : string :=
  match h with
  | [] => ""
  | (c, now, _) :: h => console_entry enabled c level now ++ console_text enabled h (call_level c level)
  end.

(** The line of one call in file [f], provided that the bit of the file is set. *)
Definition file_entry (f : file) (c : call) (level : N) (now : string) : string :=
  let write k text := if file_eqb (file_of k) f then text_for_file (file_label k) level now text else "" in
  match c with
  | CSet _ | CSetList _ => ""
  | CWarning t => write SevWarning t
  | CUserInfo t => write SevUserInfo t
  | CLogging t => write SevLogging t
  | CExtended t => write SevExtended t
  | CError t | CTerminate t => write SevError t
  end.
(** Contents of file [f] after a history, with logging compiled in. Whoever finds the bit of the
    file set and the file not open empties it; a terminating error closes it. *)
Fixpoint file_text (f : file) (h : list event) (level : N) (is_open : bool) (text : option string) : option string :=
  match h with
  | [] => text
  | (c, _, now) :: h =>
      let wanted := N.testbit level (file_bit f) in
      let text := if wanted
                  then Some ((if is_open then match text with Some t => t | None => "" end else "") ++
                             file_entry f c level now)
                  else text in
      let is_open := is_open || wanted in
      let level' := call_level c level in
      match c with
      | CTerminate _ => file_text f h level' (is_open && negb wanted) text
      | _ => if N.testbit level' (file_bit f) && negb is_open then file_text f h level' true (Some "")
             else file_text f h level' is_open text
      end
  end.

(** Does level [l] switch on flag number [i]?  The flags are numbered in the order of the header. *)
Definition switches_on (l : OutputLevel) (i : N) : bool :=
  match l with
  | nothing => false
  | userinfo => N.eqb i 0 | errors => N.eqb i 1 | warnings => N.eqb i 2 | logging => N.eqb i 3
  | logging_verbose => N.eqb i 4 | time_stamp => N.eqb i 5 | warning_file => N.eqb i 6 | error_file => N.eqb i 7
  | log_file => N.eqb i 8
  | all => N.ltb i 9
  end.
