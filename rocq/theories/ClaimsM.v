(** Claims about the logger (C55-C57). *)
From Coq Require Import Ascii String NArith Bool List Lia.
From Verif Require Import ModelLogger SpecLogger.
Import ListNotations.
Local Open Scope string_scope.

Lemma app_nil_str (s : string) : s ++ "" = s.
Proof. induction s; simpl; congruence. Qed.
Lemma app_assoc_str (a b c : string) : (a ++ b) ++ c = a ++ b ++ c.
Proof. induction a; simpl; congruence. Qed.

Lemma land_pow2 n l : negb (N.land (2 ^ n) l =? 0)%N = N.testbit l n.
Proof.
  destruct (N.testbit l n) eqn:E.
  - apply negb_true_iff, N.eqb_neq. intros H. apply (f_equal (fun x => N.testbit x n)) in H.
    rewrite N.land_spec, N.pow2_bits_true, E, N.bits_0 in H. discriminate.
  - apply negb_false_iff, N.eqb_eq. apply N.bits_inj. intros m. rewrite N.land_spec, N.bits_0, N.pow2_bits_eqb.
    destruct (N.eqb_spec n m) as [<-|]; [rewrite E|]; reflexivity.
Qed.
Lemma bit_code l n s : level_code l = (2 ^ n)%N -> bit_set l s = N.testbit (outputlevel s) n.
Proof. intros H. unfold bit_set. rewrite H. apply land_pow2. Qed.
Lemma file_code f s :
  bit_set (match f with LogFile => log_file | WarningFile => warning_file | ErrorFile => error_file end) s
  = N.testbit (outputlevel s) (file_bit f).
Proof. destruct f; apply bit_code; reflexivity. Qed.

(** [init] opens the requested files that are not open. *)
Lemma init_level e s : outputlevel (init e s) = outputlevel s.
Proof. destruct e; reflexivity. Qed.
Lemma init_console e s : console (init e s) = console s.
Proof. destruct e; reflexivity. Qed.
Lemma init_stream e f s : stream_of f (init e s) =
  if e && N.testbit (outputlevel s) (file_bit f) then open_stream (stream_of f s) else stream_of f s.
Proof.
  rewrite <- file_code. destruct e; [|reflexivity]. destruct f; reflexivity.
Qed.

(** Contents of [f] once the streams are open for the next call. *)
Definition base_contents (e : bool) (f : file) (s : logger) : string :=
  if e && N.testbit (outputlevel s) (file_bit f) && negb (is_open (stream_of f s)) then "" else file_contents f s.
Lemma init_contents e f s : file_contents f (init e s) = base_contents e f s.
Proof.
  unfold file_contents, base_contents. rewrite init_stream. destruct (e && N.testbit (outputlevel s) (file_bit f)); simpl; auto.
  unfold open_stream. destruct (is_open (stream_of f s)); reflexivity.
Qed.

Definition wf_stream (f : stream) : Prop := is_open f = true -> contents f <> None.
Definition wf_logger (s : logger) : Prop := forall f, wf_stream (stream_of f s).
Lemma wf_open f : wf_stream f -> wf_stream (open_stream f).
Proof. unfold wf_stream, open_stream. intros H. destruct (is_open f) eqn:E; auto. simpl. discriminate. Qed.
Lemma wf_close f : wf_stream f -> wf_stream (close_stream f).
Proof. unfold wf_stream, close_stream. intros H. destruct (is_open f) eqn:E; simpl; [discriminate|]. now rewrite E. Qed.
Lemma wf_write f t : wf_stream f -> wf_stream (write_stream f t).
Proof. unfold wf_stream, write_stream. intros H. destruct (is_open f) eqn:E; simpl; [|now rewrite E]. destruct (contents f); simpl; [discriminate|auto]. Qed.
Lemma wf_init e s : wf_logger s -> wf_logger (init e s).
Proof. intros H f. rewrite init_stream. destruct (e && _); [apply wf_open|]; apply H. Qed.

Lemma closed f : is_open (close_stream f) = false.
Proof. unfold close_stream. destruct (is_open f) eqn:E; auto. Qed.
Lemma stream_cout f s t : stream_of f (cout s t) = stream_of f s.
Proof. destruct f; reflexivity. Qed.
Lemma stream_set_level f s l : stream_of f (set_level s l) = stream_of f s.
Proof. destruct f; reflexivity. Qed.

(** The common body of the message functions. *)
Definition send (ck : OutputLevel) (cl fl : string) (col : Color) (fk : OutputLevel) (to : logger -> string -> logger)
  (t1 t2 : string) (s : logger) (text : string) : logger :=
  let s := if bit_set ck s then cout s (console_line s t1 cl text col) else s in
  if bit_set fk s then to s (file_line s t2 fl text) else s.

Definition to_file (f : file) : logger -> string -> logger :=
  match f with LogFile => to_log | WarningFile => to_warning | ErrorFile => to_error end.
Definition flag_of (f : file) : OutputLevel :=
  match f with LogFile => log_file | WarningFile => warning_file | ErrorFile => error_file end.
Lemma stream_to f g s t : stream_of g (to_file f s t) = if file_eqb f g then write_stream (stream_of g s) t else stream_of g s.
Proof. destruct f, g; reflexivity. Qed.
Lemma console_to f s t : console (to_file f s t) = console s.
Proof. destruct f; reflexivity. Qed.
Lemma level_to f s t : outputlevel (to_file f s t) = outputlevel s.
Proof. destruct f; reflexivity. Qed.

Lemma send_level ck cl fl col f t1 t2 s text : outputlevel (send ck cl fl col (flag_of f) (to_file f) t1 t2 s text) = outputlevel s.
Proof. unfold send. destruct (bit_set ck s); (destruct (bit_set (flag_of f) _); [rewrite level_to|]); reflexivity. Qed.
Lemma send_console ck cl fl col f t1 t2 s text : console (send ck cl fl col (flag_of f) (to_file f) t1 t2 s text) =
  console s ++ (if bit_set ck s then console_line s t1 cl text col else "").
Proof.
  unfold send. destruct (bit_set ck s); (destruct (bit_set (flag_of f) _); [rewrite console_to|]); simpl; rewrite ?app_nil_str; reflexivity.
Qed.
Lemma send_stream ck cl fl col f g t1 t2 s text : stream_of g (send ck cl fl col (flag_of f) (to_file f) t1 t2 s text) =
  if bit_set (flag_of f) s && file_eqb f g then write_stream (stream_of g s) (file_line s t2 fl text) else stream_of g s.
Proof.
  unfold send. destruct (bit_set ck s).
  - change (bit_set (flag_of f) (cout s (console_line s t1 cl text col))) with (bit_set (flag_of f) s).
    destruct (bit_set (flag_of f) s); [rewrite stream_to|]; rewrite ?stream_cout; simpl; auto.
  - destruct (bit_set (flag_of f) s); [rewrite stream_to|]; simpl; auto.
Qed.

Lemma blanks_align n s : setw n s = right_aligned n s.
Proof.
  unfold setw, right_aligned. induction (n - String.length s); simpl; congruence.
Qed.
Lemma stamp_eq s now : GetTimeStamp s now = stamp (outputlevel s) now.
Proof. unfold GetTimeStamp, stamp. rewrite (bit_code _ time_bit) by reflexivity. reflexivity. Qed.

Definition col_of (k : severity) : Color :=
  match k with SevWarning => yellow | SevUserInfo => blue | SevLogging => shell_default | SevExtended => green | SevError => red end.
Definition lev_of (k : severity) : OutputLevel :=
  match k with SevWarning => warnings | SevUserInfo => userinfo | SevLogging => logging | SevExtended => logging_verbose | SevError => errors end.
Lemma perform_message e t1 t2 k text s : perform e t1 t2 (message k text) s =
  (if e then send (lev_of k) (label k) (file_label k) (col_of k) (flag_of (file_of k)) (to_file (file_of k)) t1 t2 (init e s) text
   else init e s, Returned).
Proof. destruct k; reflexivity. Qed.
Lemma console_line_eq s now name text k : console_line s now name text (col_of k) = text_for_console name (colour k) (outputlevel s) now text.
Proof.
  unfold console_line, text_for_console. rewrite stamp_eq, blanks_align. destruct k; reflexivity.
Qed.
Lemma file_line_eq s now name text : file_line s now name text = text_for_file name (outputlevel s) now text.
Proof. unfold file_line, text_for_file. rewrite stamp_eq, blanks_align. reflexivity. Qed.

Lemma write_contents f s t : wf_stream (stream_of f s) -> is_open (stream_of f s) = true ->
  match contents (write_stream (stream_of f s) t) with Some c => c | None => "" end = file_contents f s ++ t.
Proof.
  intros HW HO. unfold write_stream, file_contents. rewrite HO. simpl. destruct (contents (stream_of f s)) eqn:E; simpl; auto.
  exfalso. apply (HW HO E).
Qed.

(** ** Levels and well-formedness along histories *)
Lemma lor_fold ls acc s : outputlevel (fold_left (fun s l => set_level s (N.lor (outputlevel s) (level_code l))) ls (set_level s acc))
  = N.lor acc (fold_right N.lor 0 (map level_code ls))%N.
Proof.
  revert acc s. induction ls as [|l ls IH]; intros acc s; simpl; [now rewrite N.lor_0_r|].
  change (set_level (set_level s acc) (N.lor acc (level_code l))) with (set_level s (N.lor acc (level_code l))).
  rewrite IH. now rewrite N.lor_assoc.
Qed.
Lemma fold_set ls acc s : fold_left (fun s l => set_level s (N.lor (outputlevel s) (level_code l))) ls (set_level s acc)
  = set_level s (N.lor acc (fold_right N.lor 0 (map level_code ls)))%N.
Proof.
  revert acc s. induction ls as [|l ls IH]; intros acc s; simpl; [now rewrite N.lor_0_r|].
  change (set_level (set_level s acc) (N.lor acc (level_code l))) with (set_level s (N.lor acc (level_code l))).
  rewrite IH. now rewrite N.lor_assoc.
Qed.
Lemma codes_bound ls : (fold_right N.lor 0 (map level_code ls) < 2 ^ 32)%N.
Proof.
  apply N.le_lt_trans with (m := 511%N); [|reflexivity].
  assert (H : (N.land (fold_right N.lor 0 (map level_code ls)) 511 = fold_right N.lor 0 (map level_code ls))%N).
  { induction ls as [|l ls IH]; simpl; auto. rewrite N.land_lor_distr_l, IH. f_equal. destruct l; reflexivity. }
  rewrite <- H. change 511%N with (N.ones 9). rewrite N.land_ones.
  pose proof (N.mod_lt (fold_right N.lor 0 (map level_code ls))%N (2 ^ 9)%N ltac:(discriminate)).
  change (N.ones 9) with 511%N. change (2 ^ 9)%N with 512%N in *. lia.
Qed.

Lemma close_level e s : outputlevel (close e s) = outputlevel s.
Proof. destruct e; reflexivity. Qed.
Lemma close_console e s : console (close e s) = console s.
Proof. destruct e; reflexivity. Qed.
Lemma close_stream_of e f s : stream_of f (close e s) =
  if e && N.testbit (outputlevel s) (file_bit f) then close_stream (stream_of f s) else stream_of f s.
Proof. rewrite <- file_code. destruct e; [|reflexivity]. destruct f; reflexivity. Qed.

Lemma perform_terminate e t1 t2 text s : perform e t1 t2 (CTerminate text) s =
  (close e (if e then send errors "crit. error" "error" red error_file to_error t1 t2 (init e s) text
   else if bit_set errors (init e s) then cout (init e s) (console_line (init e s) t1 "crit. error" text red) else init e s), Raised text).
Proof. destruct e; reflexivity. Qed.

Lemma perform_level e t1 t2 c s : outputlevel (fst (perform e t1 t2 c s)) = call_level c (outputlevel s).
Proof.
  assert (HM : forall k t, outputlevel (fst (perform e t1 t2 (message k t) s)) = outputlevel s).
  { intros k t. rewrite perform_message. cbn [fst]. destruct e; [rewrite send_level|]; apply init_level. }
  destruct c.
  - simpl. unfold SetOutputLevel. rewrite init_level. reflexivity.
  - simpl. unfold SetOutputLevel_list. rewrite init_level, lor_fold. reflexivity.
  - apply (HM SevWarning).
  - apply (HM SevUserInfo).
  - apply (HM SevLogging).
  - apply (HM SevExtended).
  - apply (HM SevError).
  - rewrite perform_terminate. cbn [fst]. rewrite close_level. simpl. destruct e.
    + change to_error with (to_file ErrorFile). change error_file with (flag_of ErrorFile). rewrite send_level. apply init_level.
    + destruct (bit_set errors _); reflexivity.
Qed.

Lemma wf_send ck cl fl col f t1 t2 s text : wf_logger s -> wf_logger (send ck cl fl col (flag_of f) (to_file f) t1 t2 s text).
Proof. intros H g. rewrite send_stream. destruct (_ && _); [apply wf_write|]; apply H. Qed.
Lemma wf_perform e t1 t2 c s : wf_logger s -> wf_logger (fst (perform e t1 t2 c s)).
Proof.
  intros H.
  assert (HM : forall k t, wf_logger (fst (perform e t1 t2 (message k t) s))).
  { intros k t. rewrite perform_message. cbn [fst]. destruct e; [apply wf_send|]; apply wf_init; auto. }
  destruct c.
  - simpl. unfold SetOutputLevel. apply wf_init. intros f. rewrite stream_set_level. apply wf_init; auto.
  - simpl. unfold SetOutputLevel_list. apply wf_init. rewrite fold_set. intros f. rewrite stream_set_level. apply wf_init; auto.
  - apply (HM SevWarning).
  - apply (HM SevUserInfo).
  - apply (HM SevLogging).
  - apply (HM SevExtended).
  - apply (HM SevError).
  - rewrite perform_terminate. cbn [fst]. intros f. rewrite close_stream_of.
    assert (HW : wf_logger (if e then send errors "crit. error" "error" red error_file to_error t1 t2 (init e s) t
      else if bit_set errors (init e s) then cout (init e s) (console_line (init e s) t1 "crit. error" t red) else init e s)).
    { destruct e; [apply (wf_send _ _ _ _ ErrorFile); apply wf_init; auto|]. destruct (bit_set errors _); [intros g; rewrite stream_cout|]; apply wf_init; auto. }
    destruct (_ && _); [apply wf_close|]; apply HW.
Qed.
Lemma wf_initial : wf_logger initial_logger.
Proof. intros f. destruct f; discriminate. Qed.
Lemma run_snoc e h c t1 t2 s : run e (h ++ [(c, t1, t2)]) s = fst (perform e t1 t2 c (run e h s)).
Proof. unfold run. rewrite fold_left_app. reflexivity. Qed.
Lemma wf_run e h s : wf_logger s -> wf_logger (run e h s).
Proof.
  revert s. induction h as [|((c & t1) & t2) h IH]; intros s H; simpl; auto. apply IH. apply wf_perform; auto.
Qed.

(** ** C55 *)
Lemma c55_level : forall (enabled : bool) (h : list event),
  outputlevel (run enabled h initial_logger) = fold_left (fun l e => let '(c, _, _) := e in call_level c l) h 39%N.
Proof.
  intros e h. change 39%N with (outputlevel initial_logger). generalize initial_logger.
  induction h as [|((c & t1) & t2) h IH]; intros s; simpl; auto. rewrite IH, perform_level. reflexivity.
Qed.

Lemma c55_messages_partial : forall (enabled : bool) (h : list event) (k : severity) (text t1 t2 : string),
  let s := run enabled h initial_logger in
  let level := outputlevel s in
  let s' := run enabled (h ++ [(message k text, t1, t2)]) initial_logger in
  console s' = console s ++ (if enabled && N.testbit level (console_bit k)
                             then text_for_console (label k) (colour k) level t1 text else "") /\
  forall f, exists base,
    (base = file_contents f s \/ (base = "" /\ is_open (stream_of f s) = false)) /\
    file_contents f s' = base ++ (if enabled && N.testbit level (file_bit f) && file_eqb (file_of k) f
                                  then text_for_file (file_label k) level t2 text else "").
Proof.
  intros e h k text t1 t2 s level s'. subst s'. rewrite run_snoc. fold s. rewrite perform_message. cbn [fst].
  assert (HW : wf_logger s) by apply wf_run, wf_initial.
  split.
  - destruct e; [|simpl; now rewrite app_nil_str]. rewrite send_console, init_console, console_line_eq, init_level. f_equal.
    rewrite (bit_code _ (console_bit k)) by (destruct k; reflexivity). rewrite init_level. reflexivity.
  - intros f. exists (base_contents e f s). split.
    + unfold base_contents. destruct (is_open (stream_of f s)); rewrite ?andb_false_r; auto. destruct (e && _); simpl; auto.
    + destruct e; [|simpl; now rewrite app_nil_str]. unfold file_contents at 1. rewrite send_stream.
      rewrite <- init_contents. cbn [andb].
      destruct (file_eqb (file_of k) f) eqn:EF; [|rewrite !andb_false_r, app_nil_str; reflexivity]. rewrite !andb_true_r.
      assert (HF : file_of k = f) by (destruct (file_of k), f; auto; discriminate). rewrite HF.
      assert (HB : bit_set (flag_of f) (init true s) = N.testbit level (file_bit f)).
      { unfold flag_of. rewrite file_code, init_level. reflexivity. }
      rewrite HB. destruct (N.testbit level (file_bit f)) eqn:EB; [|rewrite app_nil_str; reflexivity].
      rewrite write_contents.
      * now rewrite file_line_eq, init_level.
      * apply wf_init. auto.
      * rewrite init_stream. fold level. rewrite EB. cbn [andb]. unfold open_stream. destruct (is_open (stream_of f s)) eqn:EO; auto.
Qed.

Lemma c55_set_list : forall (enabled : bool) (t1 t2 : string) (ls : list OutputLevel) (s : logger),
  perform enabled t1 t2 (CSetList ls) s = perform enabled t1 t2 (CSet (fold_right N.lor 0%N (map level_code ls))) s.
Proof.
  intros e t1 t2 ls s. simpl. unfold SetOutputLevel_list, SetOutputLevel. rewrite fold_set.
  rewrite N.lor_0_l, N.mod_small by apply codes_bound. reflexivity.
Qed.

Lemma code_bits l i : N.testbit (level_code l) i = switches_on l i.
Proof.
  destruct (N.lt_ge_cases i 9) as [H|H].
  - assert (E : (i = 0 \/ i = 1 \/ i = 2 \/ i = 3 \/ i = 4 \/ i = 5 \/ i = 6 \/ i = 7 \/ i = 8)%N) by lia.
    destruct l; repeat (destruct E as [->|E]; [reflexivity|]); subst i; reflexivity.
  - rewrite N.bits_above_log2.
    + destruct l; cbn [switches_on]; try reflexivity; symmetry; try (apply N.eqb_neq; lia). apply N.ltb_ge. lia.
    + destruct l; cbn [level_code]; (eapply N.lt_le_trans; [|exact H]); vm_compute; reflexivity.
Qed.
Lemma c55_flags : forall (enabled : bool) (t1 t2 : string) (ls : list OutputLevel) (s : logger) (i : N),
  N.testbit (outputlevel (fst (perform enabled t1 t2 (CSetList ls) s))) i = existsb (fun l => switches_on l i) ls.
Proof.
  intros e t1 t2 ls s i. rewrite c55_set_list. simpl. unfold SetOutputLevel. rewrite init_level. cbn [set_level outputlevel]. rewrite N.mod_small by apply codes_bound.
  induction ls as [|l ls IH]; [apply N.bits_0|]. cbn [map fold_right existsb]. rewrite N.lor_spec, IH, code_bits. reflexivity.
Qed.

(** The console output of a terminating error does not depend on the compile flag. *)
Lemma c55_terminating_error : forall (enabled : bool) (h : list event) (text t1 t2 : string),
  let s := run enabled h initial_logger in
  let level := outputlevel s in
  let s' := run enabled (h ++ [(CTerminate text, t1, t2)]) initial_logger in
  console s' = console s ++ (if N.testbit level (console_bit SevError)
                             then text_for_console "crit. error" "31" level t1 text else "") /\
  forall f, exists base,
    (base = file_contents f s \/ (base = "" /\ is_open (stream_of f s) = false)) /\
    file_contents f s' = base ++ (if enabled && N.testbit level (file_bit f) && file_eqb ErrorFile f
                                  then text_for_file "error" level t2 text else "").
Proof.
  intros e h text t1 t2 s level s'. subst s'. rewrite run_snoc. fold s. rewrite perform_terminate. cbn [fst].
  assert (HW : wf_logger s) by apply wf_run, wf_initial.
  change to_error with (to_file ErrorFile). change error_file with (flag_of ErrorFile).
  split.
  - rewrite close_console. destruct e.
    + rewrite send_console, init_console, (console_line_eq _ _ _ _ SevError), init_level. f_equal.
      rewrite (bit_code _ (console_bit SevError)) by reflexivity. rewrite init_level. reflexivity.
    + rewrite (bit_code _ (console_bit SevError)) by reflexivity. rewrite init_level. fold level.
      destruct (N.testbit level (console_bit SevError)); simpl console; [|now rewrite app_nil_str].
      rewrite (console_line_eq _ _ _ _ SevError). reflexivity.
  - intros f. exists (base_contents e f s). split.
    + unfold base_contents. destruct (is_open (stream_of f s)); rewrite ?andb_false_r; auto. destruct (e && _); simpl; auto.
    + unfold file_contents at 1. rewrite close_stream_of.
      match goal with |- match contents (if ?b then close_stream ?x else _) with _ => _ end = _ =>
        replace (contents (if b then close_stream x else x)) with (contents x)
          by (destruct b; unfold close_stream; [destruct (is_open x)|]; reflexivity) end.
      destruct e.
      * rewrite send_stream. rewrite <- init_contents. cbn [andb].
        destruct (file_eqb ErrorFile f) eqn:EF; [|rewrite !andb_false_r, app_nil_str; reflexivity]. rewrite !andb_true_r.
        assert (HF : ErrorFile = f) by (destruct f; auto; discriminate). subst f.
        assert (HB : bit_set (flag_of ErrorFile) (init true s) = N.testbit level (file_bit ErrorFile)).
        { unfold flag_of. rewrite (file_code ErrorFile), init_level. reflexivity. }
        rewrite HB. destruct (N.testbit level (file_bit ErrorFile)) eqn:EB; [|rewrite app_nil_str; reflexivity].
        rewrite write_contents.
        -- now rewrite file_line_eq, init_level.
        -- apply wf_init. auto.
        -- rewrite init_stream. fold level. rewrite EB. cbn [andb]. unfold open_stream. destruct (is_open (stream_of ErrorFile s)) eqn:EO; auto.
      * rewrite app_nil_str. unfold base_contents. cbn [andb]. unfold init. destruct (bit_set errors s); [rewrite stream_cout|]; reflexivity.
Qed.

Lemma c55_terminating_error_refuted : exists (h : list event) (text t1 t2 : string),
  console (run false (h ++ [(CTerminate text, t1, t2)]) initial_logger) <> console (run false h initial_logger).
Proof. exists [], "text", "now", "now". vm_compute. discriminate. Qed.

(** ** C56 *)
Lemma c56_raises : forall (enabled : bool) (t1 t2 : string) (c : call) (s : logger),
  (forall text, c = CTerminate text -> snd (perform enabled t1 t2 c s) = Raised text) /\
  ((forall text, c <> CTerminate text) -> snd (perform enabled t1 t2 c s) = Returned).
Proof.
  intros e t1 t2 c s. split; [intros text ->; reflexivity|]. intros H. destruct c; try reflexivity. exfalso. eapply H; reflexivity.
Qed.

(** ** C57 *)
(** A stream is open, or the file has never been opened. *)
Definition kept (f : file) (s : logger) : Prop := is_open (stream_of f s) = true \/ contents (stream_of f s) = None.

Lemma str_prefix_refl (a : string) : exists b, a = a ++ b.
Proof. exists "". now rewrite app_nil_str. Qed.
Lemma str_prefix_trans (a b c : string) : (exists x, b = a ++ x) -> (exists y, c = b ++ y) -> exists z, c = a ++ z.
Proof. intros (x & ->) (y & ->). exists (x ++ y). apply app_assoc_str. Qed.

Lemma kept_init e f s : kept f s -> kept f (init e s) /\ exists x, file_contents f (init e s) = file_contents f s ++ x.
Proof.
  intros H. rewrite init_contents. unfold base_contents, kept in *. rewrite init_stream. unfold file_contents.
  destruct (e && N.testbit (outputlevel s) (file_bit f)); cbn [andb]; [|split; [auto|apply str_prefix_refl]].
  unfold open_stream. destruct (is_open (stream_of f s)) eqn:E; cbn.
  - split; [auto|]. apply str_prefix_refl.
  - split; [auto|]. destruct H as [H|H]; [discriminate|]. rewrite H. apply str_prefix_refl.
Qed.
Lemma kept_write f s t : wf_logger s -> kept f s ->
  let w := write_stream (stream_of f s) t in
  (is_open w = true \/ contents w = None) /\
  exists x, (match contents w with Some c => c | None => "" end) = file_contents f s ++ x.
Proof.
  intros HW H w. subst w. unfold kept, write_stream, file_contents in *. destruct (is_open (stream_of f s)) eqn:E; cbn.
  - split; auto. destruct (contents (stream_of f s)) eqn:EC; [exists t; reflexivity|]. exfalso. apply (HW f E EC).
  - split; [rewrite E; auto|apply str_prefix_refl].
Qed.
Lemma kept_send ck cl fl col f g t1 t2 s text : wf_logger s -> kept g s ->
  let s' := send ck cl fl col (flag_of f) (to_file f) t1 t2 s text in
  kept g s' /\ exists x, file_contents g s' = file_contents g s ++ x.
Proof.
  intros HW HK s'. unfold kept. subst s'. unfold file_contents at 1. rewrite send_stream.
  destruct (_ && _); [apply kept_write; auto|]. split; [exact HK|apply str_prefix_refl].
Qed.

Lemma kept_step e t1 t2 c f s : wf_logger s -> kept f s ->
  match c with CTerminate _ => N.testbit (outputlevel s) (file_bit f) | _ => false end = false ->
  let s' := fst (perform e t1 t2 c s) in
  kept f s' /\ exists x, file_contents f s' = file_contents f s ++ x.
Proof.
  intros HW HK HT s'. subst s'. destruct (kept_init e f s HK) as (HK1 & HX1). assert (HW1 := wf_init e s HW).
  assert (HM : forall k t, kept f (fst (perform e t1 t2 (message k t) s)) /\
     exists x, file_contents f (fst (perform e t1 t2 (message k t) s)) = file_contents f s ++ x).
  { intros k t. rewrite perform_message. cbn [fst]. destruct e; [|auto].
    destruct (kept_send (lev_of k) (label k) (file_label k) (col_of k) (file_of k) f t1 t2 _ t HW1 HK1) as (A & B).
    split; auto. eapply str_prefix_trans; eauto. }
  assert (HS : forall l, kept f (init e (set_level (init e s) l)) /\
     exists x, file_contents f (init e (set_level (init e s) l)) = file_contents f s ++ x).
  { intros l. destruct (kept_init e f (set_level (init e s) l)) as (A & B).
    - unfold kept in *. now rewrite stream_set_level.
    - split; auto. eapply str_prefix_trans; [exact HX1|]. unfold file_contents in *. rewrite stream_set_level in B. exact B. }
  destruct c.
  - simpl. apply HS.
  - simpl. unfold SetOutputLevel_list. rewrite fold_set. apply HS.
  - apply (HM SevWarning).
  - apply (HM SevUserInfo).
  - apply (HM SevLogging).
  - apply (HM SevExtended).
  - apply (HM SevError).
  - rewrite perform_terminate. cbn [fst].
    assert (HL : forall s0, outputlevel s0 = outputlevel s -> kept f s0 -> (exists x, file_contents f s0 = file_contents f s ++ x) ->
      kept f (close e s0) /\ exists x, file_contents f (close e s0) = file_contents f s ++ x).
    { intros s0 H0 H1 H2. unfold kept, file_contents in *. rewrite close_stream_of, H0, HT, andb_false_r. auto. }
    destruct e.
    + destruct (kept_send errors "crit. error" "error" red ErrorFile f t1 t2 _ t HW1 HK1) as (A & B).
      apply HL; auto; [apply (send_level errors "crit. error" "error" red ErrorFile t1 t2 (init true s) t)|]. eapply str_prefix_trans; eauto.
    + destruct (bit_set errors (init false s)); apply HL; auto; unfold kept, file_contents in *; now rewrite ?stream_cout.
Qed.

Lemma terminates_app f h h' l : terminates_with f (h ++ h') l =
  terminates_with f h l || terminates_with f h' (fold_left (fun l e => let '(c, _, _) := e in call_level c l) h l).
Proof.
  revert l. induction h as [|((c & t1) & t2) h IH]; intros l; simpl; auto. rewrite IH. now rewrite orb_assoc.
Qed.

Lemma kept_run e f h s : wf_logger s -> kept f s -> terminates_with f h (outputlevel s) = false ->
  kept f (run e h s) /\ exists x, file_contents f (run e h s) = file_contents f s ++ x.
Proof.
  revert s. induction h as [|((c & t1) & t2) h IH]; intros s HW HK HT.
  - split; [exact HK|apply str_prefix_refl].
  - simpl in HT. apply orb_false_iff in HT. destruct HT as (HT1 & HT2).
    destruct (kept_step e t1 t2 c f s HW HK HT1) as (A & B).
    rewrite <- (perform_level e t1 t2) in HT2.
    destruct (IH _ (wf_perform e t1 t2 c s HW) A HT2) as (C & D).
    split; [exact C|]. eapply str_prefix_trans; [exact B|exact D].
Qed.

Lemma c57_kept_partial : forall (enabled : bool) (f : file) (h h' : list event),
  terminates_with f (h ++ h') 39%N = false ->
  exists more, file_contents f (run enabled (h ++ h') initial_logger)
             = file_contents f (run enabled h initial_logger) ++ more.
Proof.
  intros e f h h' HT. rewrite terminates_app in HT. apply orb_false_iff in HT. destruct HT as (HT1 & HT2).
  rewrite <- (c55_level e h) in HT2.
  destruct (kept_run e f h initial_logger wf_initial) as (A & _); [right; destruct f; reflexivity|exact HT1|].
  unfold run at 1. rewrite fold_left_app. apply (kept_run e f h' _ (wf_run e h _ wf_initial) A HT2).
Qed.

(** After a terminating error the next call with the same level empties the file. *)
Lemma c57_lost_after_error : forall (f : file) (h : list event) (t t1 t2 t3 t4 text : string) (k : severity),
  N.testbit (outputlevel (run true h initial_logger)) (file_bit f) = true ->
  file_contents f (run true (h ++ [(CTerminate t, t1, t2); (message k text, t3, t4)]) initial_logger) =
  if file_eqb (file_of k) f
  then text_for_file (file_label k) (outputlevel (run true h initial_logger)) t4 text else "".
Proof.
  intros f h t t1 t2 t3 t4 text k HB.
  change [(CTerminate t, t1, t2); (message k text, t3, t4)] with ([(CTerminate t, t1, t2)] ++ [(message k text, t3, t4)])%list.
  rewrite app_assoc.
  set (s1 := run true (h ++ [(CTerminate t, t1, t2)]) initial_logger).
  assert (HL : outputlevel s1 = outputlevel (run true h initial_logger)) by (unfold s1; rewrite run_snoc, perform_level; reflexivity).
  assert (HO : is_open (stream_of f s1) = false).
  { unfold s1. rewrite run_snoc, perform_terminate. cbn [fst]. rewrite close_stream_of. cbn [andb].
    change to_error with (to_file ErrorFile). change error_file with (flag_of ErrorFile).
    rewrite send_level, init_level, HB. apply closed. }
  rewrite run_snoc. change (run true (h ++ [(CTerminate t, t1, t2)]) initial_logger) with s1. rewrite perform_message. cbn [fst].
  assert (HW : wf_logger s1) by apply wf_run, wf_initial.
  assert (HC : file_contents f (init true s1) = "") by (rewrite init_contents; unfold base_contents; rewrite HL, HB, HO; reflexivity).
  unfold file_contents at 1. rewrite send_stream.
  destruct (file_eqb (file_of k) f) eqn:EF; [|rewrite andb_false_r; exact HC]. rewrite andb_true_r.
  assert (HF : file_of k = f) by (destruct (file_of k), f; auto; discriminate). rewrite HF.
  assert (HB' : bit_set (flag_of f) (init true s1) = true).
  { unfold flag_of. rewrite file_code, init_level, HL. exact HB. }
  rewrite HB', write_contents, HC.
  - now rewrite file_line_eq, init_level, HL.
  - apply wf_init. auto.
  - rewrite init_stream, HL, HB. unfold open_stream. cbn [andb]. rewrite HO. reflexivity.
Qed.

Lemma c57_truncated_refuted : exists (f : file) (h h' : list event),
  ~ exists more, file_contents f (run true (h ++ h') initial_logger)
             = file_contents f (run true h initial_logger) ++ more.
Proof.
  exists ErrorFile, [(CSet 128, "", ""); (CError "a", "", ""); (CTerminate "b", "", "")], [(CWarning "c", "", "")].
  intros (more & H). vm_compute in H. discriminate.
Qed.

(** ** Whole histories *)
Lemma perform_console e t1 t2 c s :
  console (fst (perform e t1 t2 c s)) = console s ++ console_entry e c (outputlevel s) t1.
Proof.
  assert (HM : forall k t, console (fst (perform e t1 t2 (message k t) s)) = console s ++
    (if e && N.testbit (outputlevel s) (console_bit k) then text_for_console (label k) (colour k) (outputlevel s) t1 t else "")).
  { intros k t. rewrite perform_message. cbn [fst]. destruct e; [|simpl; now rewrite app_nil_str].
    rewrite send_console, init_console, console_line_eq, init_level. f_equal.
    rewrite (bit_code _ (console_bit k)) by (destruct k; reflexivity). rewrite init_level. reflexivity. }
  destruct c.
  - simpl. unfold SetOutputLevel. rewrite init_console. cbn [set_level console]. rewrite init_console. symmetry. apply app_nil_str.
  - simpl. unfold SetOutputLevel_list. rewrite init_console, fold_set. cbn [set_level console]. rewrite init_console. symmetry. apply app_nil_str.
  - apply (HM SevWarning).
  - apply (HM SevUserInfo).
  - apply (HM SevLogging).
  - apply (HM SevExtended).
  - apply (HM SevError).
  - rewrite perform_terminate. cbn [fst]. rewrite close_console. unfold console_entry.
    change to_error with (to_file ErrorFile). change error_file with (flag_of ErrorFile). destruct e.
    + rewrite send_console, init_console, (console_line_eq _ _ _ _ SevError), init_level. f_equal.
      rewrite (bit_code _ (console_bit SevError)) by reflexivity. rewrite init_level. reflexivity.
    + rewrite (bit_code _ (console_bit SevError)) by reflexivity. rewrite init_level.
      destruct (N.testbit (outputlevel s) (console_bit SevError)); simpl console; [|now rewrite app_nil_str].
      rewrite (console_line_eq _ _ _ _ SevError). reflexivity.
Qed.

Lemma c55_console : forall (enabled : bool) (h : list event),
  console (run enabled h initial_logger) = console_text enabled h 39%N.
Proof.
  intros e h.
  assert (G : forall s, console (run e h s) = console s ++ console_text e h (outputlevel s)); [|apply (G initial_logger)].
  induction h as [|((c & t1) & t2) h IH]; intros s; [symmetry; apply app_nil_str|]. cbn [console_text].
  change (run e ((c, t1, t2) :: h) s) with (run e h (fst (perform e t1 t2 c s))).
  rewrite IH, perform_console, perform_level, app_assoc_str. reflexivity.
Qed.

Lemma file_eqb_eq f g : file_eqb f g = true -> f = g.
Proof. destruct f, g; auto; discriminate. Qed.

(** The stream of a file after a message, without [close]. *)
Lemma send_file ck cl k0 col f t1 t2 s text : wf_logger s ->
  let w := N.testbit (outputlevel s) (file_bit f) in
  let x := stream_of f (send ck cl (file_label k0) col (flag_of (file_of k0)) (to_file (file_of k0)) t1 t2 (init true s) text) in
  is_open x = (is_open (stream_of f s) || w)%bool /\
  contents x = (if w then Some ((if is_open (stream_of f s) then match contents (stream_of f s) with Some t => t | None => "" end else "")
     ++ (if file_eqb (file_of k0) f then text_for_file (file_label k0) (outputlevel s) t2 text else "")) else contents (stream_of f s)).
Proof.
  intros HW w x. subst x. rewrite send_stream.
  assert (HB : bit_set (flag_of (file_of k0)) (init true s) = N.testbit (outputlevel s) (file_bit (file_of k0))).
  { unfold flag_of. rewrite file_code, init_level. reflexivity. }
  rewrite HB, init_stream, file_line_eq, init_level. cbn [andb].
  destruct (file_eqb (file_of k0) f) eqn:EF.
  - apply file_eqb_eq in EF. rewrite EF. fold w. rewrite andb_true_r. destruct w; [|rewrite orb_false_r; auto].
    rewrite orb_true_r. unfold open_stream, write_stream. destruct (is_open (stream_of f s)) eqn:EO.
    + rewrite EO. cbn. split; auto. destruct (contents (stream_of f s)) eqn:EC; auto. exfalso. apply (HW f EO EC).
    + cbn. auto.
  - rewrite andb_false_r. fold w. destruct w; [|rewrite orb_false_r; auto]. rewrite orb_true_r.
    unfold open_stream. destruct (is_open (stream_of f s)) eqn:EO; [rewrite EO|]; cbn; auto.
    rewrite app_nil_str. split; auto. destruct (contents (stream_of f s)) eqn:EC; auto. exfalso. apply (HW f EO EC).
Qed.

Lemma init_file f s : wf_logger s -> let w := N.testbit (outputlevel s) (file_bit f) in
  is_open (stream_of f (init true s)) = (is_open (stream_of f s) || w)%bool /\
  contents (stream_of f (init true s)) = (if w then Some (if is_open (stream_of f s) then match contents (stream_of f s) with Some t => t | None => "" end else "")
     else contents (stream_of f s)).
Proof.
  intros HW w. rewrite init_stream. cbn [andb]. fold w. destruct w; [|rewrite orb_false_r; auto]. rewrite orb_true_r.
  unfold open_stream. destruct (is_open (stream_of f s)) eqn:EO; [rewrite EO|]; cbn; auto.
  split; auto. destruct (contents (stream_of f s)) eqn:EC; auto. exfalso. apply (HW f EO EC).
Qed.

Lemma run_file f h s : wf_logger s ->
  contents (stream_of f (run true h s)) = file_text f h (outputlevel s) (is_open (stream_of f s)) (contents (stream_of f s)).
Proof.
  revert s. induction h as [|((c & t1) & t2) h IH]; intros s HW; [reflexivity|].
  change (run true ((c, t1, t2) :: h) s) with (run true h (fst (perform true t1 t2 c s))).
  rewrite IH by (apply wf_perform; auto). rewrite perform_level. cbn [file_text].
  set (w := N.testbit (outputlevel s) (file_bit f)).
  assert (HM : forall k t, c = message k t -> file_entry f c (outputlevel s) t2 =
     (if file_eqb (file_of k) f then text_for_file (file_label k) (outputlevel s) t2 t else "") ->
     file_text f h (call_level c (outputlevel s)) (is_open (stream_of f (fst (perform true t1 t2 c s))))
       (contents (stream_of f (fst (perform true t1 t2 c s)))) =
     (if N.testbit (call_level c (outputlevel s)) (file_bit f) && negb (is_open (stream_of f s) || w)
      then file_text f h (call_level c (outputlevel s)) true (Some "")
      else file_text f h (call_level c (outputlevel s)) (is_open (stream_of f s) || w)
        (if w then Some ((if is_open (stream_of f s) then match contents (stream_of f s) with Some t => t | None => "" end else "")
           ++ file_entry f c (outputlevel s) t2) else contents (stream_of f s)))).
  { intros k t HC HE. rewrite HE. clear HE.
    assert (HL : call_level c (outputlevel s) = outputlevel s) by (subst c; destruct k; reflexivity). rewrite HL.
    rewrite HC, perform_message. cbn [fst].
    destruct (send_file (lev_of k) (label k) k (col_of k) f t1 t2 s t HW) as (E1 & E2). rewrite E1, E2. fold w.
    destruct w; [rewrite orb_true_r|]; reflexivity. }
  assert (HS : forall l, let s1 := init true (set_level (init true s) l) in
    file_text f h l (is_open (stream_of f s1)) (contents (stream_of f s1)) =
    if N.testbit l (file_bit f) && negb (is_open (stream_of f s) || w) then file_text f h l true (Some "")
    else file_text f h l (is_open (stream_of f s) || w)
      (if w then Some ((if is_open (stream_of f s) then match contents (stream_of f s) with Some t => t | None => "" end else "") ++ "")
       else contents (stream_of f s))).
  { intros l s1. subst s1. destruct (init_file f s HW) as (A1 & A2). fold w in A1, A2.
    assert (HW1 : wf_logger (set_level (init true s) l)) by (intros g; rewrite stream_set_level; apply wf_init; auto).
    destruct (init_file f _ HW1) as (B1 & B2). cbn [set_level outputlevel] in B1, B2.
    rewrite B1, B2. change (mkLogger l _ _ _ _) with (set_level (init true s) l). rewrite stream_set_level, A1, A2.
    destruct w.
    - rewrite orb_true_r. cbn [negb orb]. rewrite andb_false_r, app_nil_str.
      destruct (N.testbit l (file_bit f)); reflexivity.
    - rewrite orb_false_r. destruct (N.testbit l (file_bit f)); cbn [andb].
      + destruct (is_open (stream_of f s)) eqn:EO; cbn [negb orb]; auto.
        destruct (contents (stream_of f s)) eqn:EC; auto. exfalso. apply (HW f EO EC).
      + rewrite orb_false_r. reflexivity. }
  destruct c.
  - apply HS.
  - simpl perform. cbn [fst]. unfold SetOutputLevel_list. rewrite fold_set. rewrite N.lor_0_l. apply HS.
  - apply (HM SevWarning t); reflexivity.
  - apply (HM SevUserInfo t); reflexivity.
  - apply (HM SevLogging t); reflexivity.
  - apply (HM SevExtended t); reflexivity.
  - apply (HM SevError t); reflexivity.
  - clear HM HS. rewrite perform_terminate. cbn [fst call_level].
    destruct (send_file errors "crit. error" SevError red f t1 t2 s t HW) as (E1 & E2). fold w in E1, E2.
    cbn [file_of flag_of to_file file_label] in E1, E2.
    rewrite close_stream_of. cbn [andb].
    replace (outputlevel (send errors "crit. error" "error" red error_file to_error t1 t2 (init true s) t)) with (outputlevel s)
      by (symmetry; etransitivity; [apply (send_level errors "crit. error" "error" red ErrorFile)|apply init_level]).
    fold w. destruct w.
    + rewrite closed, orb_true_r. cbn [negb andb]. f_equal. unfold close_stream. rewrite E1, orb_true_r. cbn [contents].
      rewrite E2. reflexivity.
    + rewrite E1, E2, orb_false_r, andb_true_r. reflexivity.
Qed.

Lemma c57_files : forall (f : file) (h : list event),
  contents (stream_of f (run true h initial_logger)) = file_text f h 39%N false None /\
  contents (stream_of f (run false h initial_logger)) = None.
Proof.
  intros f h. split; [rewrite run_file by apply wf_initial; destruct f; reflexivity|].
  assert (G : forall s, contents (stream_of f s) = None -> contents (stream_of f (run false h s)) = None);
    [|apply G; destruct f; reflexivity].
  induction h as [|((c & t1) & t2) h IH]; intros s HC; [exact HC|].
  change (run false ((c, t1, t2) :: h) s) with (run false h (fst (perform false t1 t2 c s))). apply IH. clear IH.
  destruct c; try exact HC.
  - change (contents (stream_of f (SetOutputLevel_list false s ls)) = None).
    unfold SetOutputLevel_list, init. rewrite fold_set, stream_set_level. exact HC.
  - change (contents (stream_of f (if bit_set errors s then cout s (console_line s t1 "crit. error" t red) else s)) = None).
    destruct (bit_set errors s); [rewrite stream_cout|]; exact HC.
Qed.
