(** Properties C55-C57: the logger. *)
From Coq Require Import Ascii String NArith Bool List.
From Verif Require Import ModelLogger SpecLogger ClaimsM.
Import ListNotations.
Local Open Scope string_scope.

(** C55: filtering of the messages. *)
Theorem C55_level : forall (enabled : bool) (h : list event),
  outputlevel (run enabled h initial_logger) = fold_left (fun l e => let '(c, _, _) := e in call_level c l) h 39%N.
Proof. exact c55_level. Qed.
Print Assumptions C55_level.
(** Missing from the full property: TerminatingError, whose console output does not depend on the
    compile flag. *)
Theorem C55_messages_partial : forall (enabled : bool) (h : list event) (k : severity) (text t1 t2 : string),
  let s := run enabled h initial_logger in
  let level := outputlevel s in
  let s' := run enabled (h ++ [(message k text, t1, t2)]) initial_logger in
  console s' = console s ++ (if enabled && N.testbit level (console_bit k)
                             then text_for_console (label k) (colour k) level t1 text else "") /\
  forall f, exists base,
    (base = file_contents f s \/ (base = "" /\ is_open (stream_of f s) = false)) /\
    file_contents f s' = base ++ (if enabled && N.testbit level (file_bit f) && file_eqb (file_of k) f
                                  then text_for_file (file_label k) level t2 text else "").
Proof. exact c55_messages_partial. Qed.
Print Assumptions C55_messages_partial.
(** The whole console output of a history. *)
Theorem C55_console : forall (enabled : bool) (h : list event),
  console (run enabled h initial_logger) = console_text enabled h 39%N.
Proof. exact c55_console. Qed.
Print Assumptions C55_console.
Theorem C55_set_list : forall (enabled : bool) (t1 t2 : string) (ls : list OutputLevel) (s : logger),
  perform enabled t1 t2 (CSetList ls) s = perform enabled t1 t2 (CSet (fold_right N.lor 0%N (map level_code ls))) s.
Proof. exact c55_set_list. Qed.
Print Assumptions C55_set_list.
Theorem C55_flags : forall (enabled : bool) (t1 t2 : string) (ls : list OutputLevel) (s : logger) (i : N),
  N.testbit (outputlevel (fst (perform enabled t1 t2 (CSetList ls) s))) i = existsb (fun l => switches_on l i) ls.
Proof. exact c55_flags. Qed.
Print Assumptions C55_flags.
Theorem C55_terminating_error : forall (enabled : bool) (h : list event) (text t1 t2 : string),
  let s := run enabled h initial_logger in
  let level := outputlevel s in
  let s' := run enabled (h ++ [(CTerminate text, t1, t2)]) initial_logger in
  console s' = console s ++ (if N.testbit level (console_bit SevError)
                             then text_for_console "crit. error" "31" level t1 text else "") /\
  forall f, exists base,
    (base = file_contents f s \/ (base = "" /\ is_open (stream_of f s) = false)) /\
    file_contents f s' = base ++ (if enabled && N.testbit level (file_bit f) && file_eqb ErrorFile f
                                  then text_for_file "error" level t2 text else "").
Proof. exact c55_terminating_error. Qed.
Print Assumptions C55_terminating_error.
Theorem C55_terminating_error_refuted : exists (h : list event) (text t1 t2 : string),
  console (run false (h ++ [(CTerminate text, t1, t2)]) initial_logger) <> console (run false h initial_logger).
Proof. exact c55_terminating_error_refuted. Qed.
Print Assumptions C55_terminating_error_refuted.
Example C55_case :
  let h := [(CSetList [warnings; warning_file; errors], "", ""); (CWarning "w", "", ""); (CUserInfo "u", "", "")] in
  outputlevel (run true h initial_logger) = 70%N /\
  console (run true h initial_logger) = text_for_console "warning" "33" 70 "" "w" /\
  file_contents WarningFile (run true h initial_logger) = "[   warning] : w" ++ eol /\
  console (run false h initial_logger) = "".
Proof. repeat split. Qed.

(** C56: exceptions. *)
Theorem C56_raises : forall (enabled : bool) (t1 t2 : string) (c : call) (s : logger),
  (forall text, c = CTerminate text -> snd (perform enabled t1 t2 c s) = Raised text) /\
  ((forall text, c <> CTerminate text) -> snd (perform enabled t1 t2 c s) = Returned).
Proof. exact c56_raises. Qed.
Print Assumptions C56_raises.
Example C56_case : snd (perform false "" "" (CTerminate "x") initial_logger) = Raised "x" /\
  snd (perform true "" "" (CError "x") initial_logger) = Returned.
Proof. split; reflexivity. Qed.

(** C57: contents of the files. *)
(** Missing from the full property: histories in which a TerminatingError is raised while the bit
    of the file is set. *)
Theorem C57_kept_partial : forall (enabled : bool) (f : file) (h h' : list event),
  terminates_with f (h ++ h') 39%N = false ->
  exists more, file_contents f (run enabled (h ++ h') initial_logger)
             = file_contents f (run enabled h initial_logger) ++ more.
Proof. exact c57_kept_partial. Qed.
Print Assumptions C57_kept_partial.
(** The exact contents of each file after any history ([None]: the file does not exist). *)
Theorem C57_files : forall (f : file) (h : list event),
  contents (stream_of f (run true h initial_logger)) = file_text f h 39%N false None /\
  contents (stream_of f (run false h initial_logger)) = None.
Proof. exact c57_files. Qed.
Print Assumptions C57_files.
Theorem C57_lost_after_error : forall (f : file) (h : list event) (t t1 t2 t3 t4 text : string) (k : severity),
  N.testbit (outputlevel (run true h initial_logger)) (file_bit f) = true ->
  file_contents f (run true (h ++ [(CTerminate t, t1, t2); (message k text, t3, t4)]) initial_logger) =
  if file_eqb (file_of k) f
  then text_for_file (file_label k) (outputlevel (run true h initial_logger)) t4 text else "".
Proof. exact c57_lost_after_error. Qed.
Print Assumptions C57_lost_after_error.
Theorem C57_truncated_refuted : exists (f : file) (h h' : list event),
  ~ exists more, file_contents f (run true (h ++ h') initial_logger)
             = file_contents f (run true h initial_logger) ++ more.
Proof. exact c57_truncated_refuted. Qed.
Print Assumptions C57_truncated_refuted.
Example C57_case :
  let h := [(CSet 384, "", ""); (CError "a", "", ""); (CSet 0, "", ""); (CTerminate "b", "", "")] in
  let h' := [(CSet 128, "", ""); (CError "c", "", "")] in
  terminates_with ErrorFile (h ++ h') 39 = false /\
  file_contents ErrorFile (run true (h ++ h') initial_logger) =
    "[     error] : a" ++ eol ++ "[     error] : c" ++ eol /\
  file_text ErrorFile [(CSet 128, "", ""); (CError "a", "", ""); (CTerminate "b", "", "")] 39 false None =
    Some ("[     error] : a" ++ eol ++ "[     error] : b" ++ eol) /\
  file_text ErrorFile [(CSet 128, "", ""); (CError "a", "", ""); (CTerminate "b", "", ""); (CError "c", "", "")] 39 false None =
    Some ("[     error] : c" ++ eol) /\
  console_text true [(CUserInfo "u", "", ""); (CSet 0, "", ""); (CError "e", "", "")] 39 = text_for_console "user info" "34" 39 "" "u".
Proof. repeat split; reflexivity. Qed.
