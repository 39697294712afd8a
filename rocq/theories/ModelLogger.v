(** Model of src/utils/logger.hpp.

    The logger is a state machine. Its state also contains what it has written: the text sent to
    the console and the contents of the three log files. Buffering is not modelled (a file holds
    what has been written to its stream), opening a file always succeeds and nobody else writes to
    the files. The formatting state of [std::cout] is the initial one (padding on the left with
    blanks). *)
From Coq Require Import Ascii String NArith Bool List.
Import ListNotations.
Local Open Scope string_scope.

(** src/utils/logger.hpp:54-66 *)
Inductive OutputLevel :=
  nothing | userinfo | errors | warnings | logging | logging_verbose | time_stamp | warning_file | error_file
| log_file | all.
Definition level_code (l : OutputLevel) : N :=
  match l with
  | nothing => 0 | userinfo => 1 | errors => 2 | warnings => 4 | logging => 8 | logging_verbose => 16
  | time_stamp => 32 | warning_file => 64 | error_file => 128 | log_file => 256 | all => 511
  end.

(** [std::ofstream] together with the contents of its file; [None]: the file has never been
    opened. *)
Record stream := mkStream { is_open : bool; contents : option string }.
(** src/utils/logger.hpp:326-334, 379 *)
Record logger := mkLogger {
  outputlevel : N;
  console : string;
  log_stream : stream;
  warning_stream : stream;
  error_stream : stream
}.
Definition closed_stream : stream := mkStream false None.
Definition initial_logger : logger := mkLogger 39 "" closed_stream closed_stream closed_stream.

(** The preprocessor flag ENABLE_LOGGING. *)
Section Logger.
Context (enabled : bool).

(** [static_cast<unsigned>(OutputLevel::l) & outputlevel_] as condition *)
Definition bit_set (l : OutputLevel) (s : logger) : bool := negb (N.land (level_code l) (outputlevel s) =? 0)%N.

(** [ofstream::open] with the default mode [out]: the file is truncated. *)
Definition open_stream (f : stream) : stream := if is_open f then f else mkStream true (Some "").
Definition close_stream (f : stream) : stream := if is_open f then mkStream false (contents f) else f.
(** [f << text]; writing to a closed stream has no effect on the file. *)
Definition write_stream (f : stream) (text : string) : stream :=
  if is_open f then mkStream true (option_map (fun c => c ++ text) (contents f)) else f.

(** src/utils/logger.hpp:337-355 *)
Definition init (s : logger) : logger :=
  if enabled then
    mkLogger (outputlevel s) (console s)
      (if bit_set log_file s then open_stream (log_stream s) else log_stream s)
      (if bit_set warning_file s then open_stream (warning_stream s) else warning_stream s)
      (if bit_set error_file s then open_stream (error_stream s) else error_stream s)
  else s.

(** src/utils/logger.hpp:358-376 *)
Definition close (s : logger) : logger :=
  if enabled then
    mkLogger (outputlevel s) (console s)
      (if bit_set log_file s then close_stream (log_stream s) else log_stream s)
      (if bit_set warning_file s then close_stream (warning_stream s) else warning_stream s)
      (if bit_set error_file s then close_stream (error_stream s) else error_stream s)
  else s.

(** src/utils/logger.hpp:384-393; [now] is the text of the current time. *)
Definition GetTimeStamp (s : logger) (now : string) : string :=
  if bit_set time_stamp s then "[" ++ now ++ "]" else "".

(** src/utils/logger.hpp:395-421, the colours in use *)
Inductive Color := red | green | yellow | blue | shell_default.
Definition escape : string := String (ascii_of_N 27) "".
Definition ColorText (text : string) (c : Color) : string :=
  match c with
  | red => escape ++ "[31m" | green => escape ++ "[32m" | yellow => escape ++ "[33m" | blue => escape ++ "[34m"
  | shell_default => escape ++ "[;0m"
  end ++ text ++ escape ++ "[0m".

(** [std::setw(n) << text] *)
Fixpoint blanks (n : nat) : string := match n with O => "" | S m => " " ++ blanks m end.
Definition setw (n : nat) (text : string) : string := blanks (n - String.length text) ++ text.
Definition newline : string := String (ascii_of_N 10) "".

Definition cout (s : logger) (text : string) : logger :=
  mkLogger (outputlevel s) (console s ++ text) (log_stream s) (warning_stream s) (error_stream s).
Definition console_line (s : logger) (now label text : string) (c : Color) : string :=
  "[" ++ setw 20 (ColorText label c) ++ "]" ++ GetTimeStamp s now ++ " : " ++ ColorText text c ++ newline.
Definition file_line (s : logger) (now label text : string) : string :=
  "[" ++ setw 10 label ++ "]" ++ GetTimeStamp s now ++ " : " ++ text ++ newline.
Definition to_log (s : logger) (text : string) : logger :=
  mkLogger (outputlevel s) (console s) (write_stream (log_stream s) text) (warning_stream s) (error_stream s).
Definition to_warning (s : logger) (text : string) : logger :=
  mkLogger (outputlevel s) (console s) (log_stream s) (write_stream (warning_stream s) text) (error_stream s).
Definition to_error (s : logger) (text : string) : logger :=
  mkLogger (outputlevel s) (console s) (log_stream s) (warning_stream s) (write_stream (error_stream s) text).

(** The time is read separately for the console and for the file. *)
Context (now_console now_file : string).

(** src/utils/logger.hpp:197-210 *)
Definition Warning (s : logger) (text : string) : logger :=
  if enabled then
    let s := if bit_set warnings s then cout s (console_line s now_console "warning" text yellow) else s in
    if bit_set warning_file s then to_warning s (file_line s now_file "warning" text) else s
  else s.
(** src/utils/logger.hpp:218-230 *)
Definition UserInfo (s : logger) (text : string) : logger :=
  if enabled then
    let s := if bit_set userinfo s then cout s (console_line s now_console "user info" text blue) else s in
    if bit_set log_file s then to_log s (file_line s now_file "user info" text) else s
  else s.
(** src/utils/logger.hpp:238-251 *)
Definition Logging (s : logger) (text : string) : logger :=
  if enabled then
    let s := if bit_set logging s then cout s (console_line s now_console "log" text shell_default) else s in
    if bit_set log_file s then to_log s (file_line s now_file "user info" text) else s
  else s.
(** src/utils/logger.hpp:260-272 *)
Definition ExtendedInformation (s : logger) (text : string) : logger :=
  if enabled then
    let s := if bit_set logging_verbose s then cout s (console_line s now_console "log" text green) else s in
    if bit_set log_file s then to_log s (file_line s now_file "user info" text) else s
  else s.
(** src/utils/logger.hpp:280-292 *)
Definition Error (s : logger) (text : string) : logger :=
  if enabled then
    let s := if bit_set errors s then cout s (console_line s now_console "error" text red) else s in
    if bit_set error_file s then to_error s (file_line s now_file "error" text) else s
  else s.
(** src/utils/logger.hpp:300-318, up to the [throw] *)
Definition TerminatingError (s : logger) (text : string) : logger :=
  let s := if bit_set errors s then cout s (console_line s now_console "crit. error" text red) else s in
  let s := if enabled then
             if bit_set error_file s then to_error s (file_line s now_file "error" text) else s
           else s in
  close s.

(** src/utils/logger.hpp:168-189; [unsigned int] has 32 bits. *)
Definition set_level (s : logger) (l : N) : logger :=
  mkLogger l (console s) (log_stream s) (warning_stream s) (error_stream s).
Definition SetOutputLevel (s : logger) (l : N) : logger := init (set_level s (l mod 2 ^ 32)%N).
Definition SetOutputLevel_list (s : logger) (ls : list OutputLevel) : logger :=
  init (fold_left (fun s l => set_level s (N.lor (outputlevel s) (level_code l))) ls (set_level s 0)).

(** The public interface, src/utils/logger.hpp:75-148; every function first calls [Get], 155-159. *)
Inductive call :=
| CSet (l : N) | CSetList (ls : list OutputLevel)
| CWarning (t : string) | CUserInfo (t : string) | CLogging (t : string) | CExtended (t : string) | CError (t : string)
| CTerminate (t : string).
Inductive outcome := Returned | Raised (what : string).
Definition perform (c : call) (s : logger) : logger * outcome :=
  let s := init s in
  match c with
  | CSet l => (SetOutputLevel s l, Returned)
  | CSetList ls => (SetOutputLevel_list s ls, Returned)
  | CWarning t => (Warning s t, Returned)
  | CUserInfo t => (UserInfo s t, Returned)
  | CLogging t => (Logging s t, Returned)
  | CExtended t => (ExtendedInformation s t, Returned)
  | CError t => (Error s t, Returned)
  | CTerminate t => (TerminatingError s t, Raised t)
  end.
End Logger.

(** A history: calls with the times at which they are made. Exceptions are caught. *)
Definition event := (call * string * string)%type.
Definition run (enabled : bool) (h : list event) (s : logger) : logger :=
  fold_left (fun s e => let '(c, t1, t2) := e in fst (perform enabled t1 t2 c s)) h s.
