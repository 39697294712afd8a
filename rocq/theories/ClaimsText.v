From Coq Require Import Arith Lia List ZArith Ascii String DecimalString DecimalZ.
From Verif Require Import Prelude Scalar Coord ModelAD ModelText SpecText.
Import ListNotations.
Local Open Scope string_scope.

Lemma app_assoc_s (a b c : string) : (a ++ b) ++ c = a ++ b ++ c.
Proof. induction a; cbn; congruence. Qed.
Lemma app_nil_s (a : string) : a ++ "" = a.
Proof. induction a; cbn; congruence. Qed.
Lemma length_app_s (a b : string) : String.length (a ++ b) = String.length a + String.length b.
Proof. induction a; cbn; congruence. Qed.
Lemma chars_spaces n : chars n " "%char = spaces n.
Proof. unfold spaces. induction n; cbn; congruence. Qed.
Lemma length_spaces n : String.length (spaces n) = n.
Proof. unfold spaces. induction n; cbn; congruence. Qed.
Lemma app_inj_s a b c : a ++ b = a ++ c -> b = c.
Proof. induction a; cbn; intros H; [exact H|]. injection H. exact IHa. Qed.

(** Text of a fresh stream with precision [p] after the first coordinate. *)
Definition plain_stream (t : string) (p : Z) : ostream := mkStream t 0 p false " "%char.
Lemma put_plain s t p : put s (plain_stream t p) = plain_stream (t ++ s) p.
Proof. reflexivity. Qed.
Lemma put_field s t w p p' : put s (setprecision p (setw w (plain_stream t p'))) = plain_stream (t ++ right_aligned (Z.to_nat w) s) p.
Proof.
  unfold put, setprecision, setw, plain_stream, right_aligned. cbn [os_text os_width os_precision os_left os_fill].
  now rewrite chars_spaces.
Qed.

Lemma pget_plist T d (p : point T d) i x : nth_error (plist d p) i = Some x -> pget d p i = Ok x.
Proof.
  revert p i. induction d as [|d IH]; intros p [|i]; cbn; intros H; try discriminate.
  - now injection H as ->.
  - now apply IH.
Qed.
Lemma pget_none T d (p : point T d) i : nth_error (plist d p) i = None -> pget d p i = UB.
Proof.
  revert p i. induction d as [|d IH]; intros p [|i]; cbn; intros H; try discriminate; auto.
Qed.

Lemma concat_snoc sep l x : l <> [] -> concat sep (l ++ [x])%list = concat sep l ++ sep ++ x.
Proof.
  induction l as [|a l IH]; [congruence|]. intros _. destruct l as [|b l]; [reflexivity|].
  change (a ++ sep ++ concat sep ((b :: l) ++ [x])%list = (a ++ sep ++ concat sep (b :: l)) ++ sep ++ x).
  rewrite IH by discriminate. now rewrite !app_assoc_s.
Qed.

Lemma firstn_snoc {A} (l : list A) k x : nth_error l k = Some x -> firstn (S k) l = (firstn k l ++ [x])%list.
Proof.
  revert k. induction l as [|a l IH]; intros [|k]; cbn; intros H; try discriminate.
  - now injection H as ->.
  - change (a :: firstn (S k) l = (a :: firstn k l) ++ [x])%list. now rewrite (IH k H).
Qed.

Lemma c88_text : forall T (printed : Z -> T -> string) d (p : point T d) prec, 0 < d -> (prec + 2 <= 2147483647)%Z ->
  toString (P := insert_number printed) p prec =
    Ok (bracketed (map (fun x => right_aligned (Z.to_nat (prec + 2)) (printed prec x)) (plist d p))).
Proof.
  intros T printed d p prec Hd Hp. unfold toString, int_plus_2, max_int.
  replace (prec + 2 <=? 2147483647)%Z with true by (symmetry; now apply Z.leb_le). cbn [bind].
  set (F := fun x => right_aligned (Z.to_nat (prec + 2)) (printed prec x)).
  assert (G : forall n k, 0 < k -> k + n = d ->
    for_up k n (fun i out => do x <- pget d p i;
      Ok (insert_number printed x (setprecision prec (setw (prec + 2) (put ", " out)))))
      (plain_stream ("[" ++ concat ", " (map F (firstn k (plist d p)))) prec)
    = Ok (plain_stream ("[" ++ concat ", " (map F (plist d p))) prec)).
  { induction n as [|n IH]; intros k Hk E.
    - cbn [for_up]. replace k with d by lia. rewrite firstn_all2; [reflexivity|]. rewrite plist_length. lia.
    - cbn [for_up]. destruct (nth_error (plist d p) k) as [x|] eqn:Ex.
      2:{ apply nth_error_None in Ex. rewrite plist_length in Ex. lia. }
      rewrite (pget_plist _ _ _ _ _ Ex). cbn [bind]. unfold insert_number at 2.
      rewrite put_plain. replace (os_precision _) with prec by reflexivity. rewrite put_field.
      rewrite <- (IH (S k)) by lia. f_equal. f_equal. rewrite (firstn_snoc _ _ _ Ex), map_app. cbn [map].
      rewrite concat_snoc.
      + now rewrite !app_assoc_s.
      + intros H. apply map_eq_nil in H. apply (f_equal (@Datatypes.length T)) in H. rewrite firstn_length, plist_length in H. cbn in H. lia. }
  destruct (nth_error (plist d p) 0) as [x|] eqn:Ex.
  2:{ apply nth_error_None in Ex. rewrite plist_length in Ex. lia. }
  rewrite (pget_plist _ _ _ _ _ Ex). cbn [bind].
  specialize (G (d - 1) 1 ltac:(lia) ltac:(lia)).
  change (put "[" ostringstream) with (plain_stream "[" 6).
  unfold insert. unfold insert_number at 2. replace (os_precision _) with prec by reflexivity. rewrite put_field.
  rewrite (firstn_snoc _ _ _ Ex) in G. cbn [firstn app map concat] in G. unfold F in G at 1. unfold insert in G. rewrite G. cbn [bind].
  rewrite put_plain. cbn [os_text plain_stream]. unfold bracketed. now rewrite app_assoc_s.
Qed.

Lemma c88_length : forall T (printed : Z -> T -> string) d (p : point T d) prec, 0 < d -> (0 <= prec + 2 <= 2147483647)%Z ->
  (forall x, In x (plist d p) -> (Z.of_nat (String.length (printed prec x)) <= prec + 2)%Z) ->
  exists s, toString (P := insert_number printed) p prec = Ok s /\
    Z.of_nat (String.length s) = (Z.of_nat d * (prec + 4))%Z.
Proof.
  intros T printed d p prec Hd Hp H. rewrite c88_text by lia. eexists. split; [reflexivity|].
  unfold bracketed. rewrite length_app_s. cbn [String.length]. rewrite length_app_s. cbn [String.length].
  assert (G : forall l, l <> [] -> (forall x, In x l -> (Z.of_nat (String.length (printed prec x)) <= prec + 2)%Z) ->
    Z.of_nat (String.length (concat ", " (map (fun x => right_aligned (Z.to_nat (prec + 2)) (printed prec x)) l))) =
    (Z.of_nat (Datatypes.length l) * (prec + 4) - 2)%Z).
  { induction l as [|a l IH]; [congruence|]. intros _ Hl.
    assert (A : Z.of_nat (String.length (right_aligned (Z.to_nat (prec + 2)) (printed prec a))) = (prec + 2)%Z).
    { unfold right_aligned. rewrite length_app_s, length_spaces. specialize (Hl a (or_introl eq_refl)). lia. }
    destruct l as [|b l].
    - cbn [map concat Datatypes.length]. rewrite A. lia.
    - assert (Q := IH ltac:(discriminate) ltac:(intros; apply Hl; now right)).
      cbn [map] in *.
      change (concat ", " (right_aligned (Z.to_nat (prec + 2)) (printed prec a) ::
         right_aligned (Z.to_nat (prec + 2)) (printed prec b) :: map (fun x => right_aligned (Z.to_nat (prec + 2)) (printed prec x)) l))
        with (right_aligned (Z.to_nat (prec + 2)) (printed prec a) ++ ", " ++
          concat ", " (right_aligned (Z.to_nat (prec + 2)) (printed prec b) :: map (fun x => right_aligned (Z.to_nat (prec + 2)) (printed prec x)) l)).
      rewrite !length_app_s. change (String.length ", ") with 2%nat.
      rewrite !Nat2Z.inj_add, A, Q. cbn [Datatypes.length]. lia. }
  assert (L := plist_length d p). specialize (G (plist d p)).
  rewrite L in G. assert (plist d p <> []) by (intros E; rewrite E in L; cbn in L; lia).
  specialize (G H0 H). lia.
Qed.

Lemma c88_no_coordinate : forall T (P : Printable T) (p : point T 0) prec, toString p prec = UB.
Proof. intros. unfold toString, int_plus_2. destruct (prec + 2 <=? max_int)%Z; reflexivity. Qed.

(** ** Reading the text back *)
Definition no_comma (s : string) : Prop := Forall (fun c => c <> ","%char) (list_ascii_of_string s).
Lemma no_comma_cut a b c e : no_comma a -> no_comma b ->
  a ++ String ","%char c = b ++ String ","%char e -> a = b /\ c = e.
Proof.
  revert b. induction a as [|x a IH]; intros [|y b] Ha Hb H; cbn in *.
  - injection H. auto.
  - injection H as E _. inversion Hb. congruence.
  - injection H as E _. inversion Ha. congruence.
  - injection H as E H. inversion Ha. inversion Hb. subst. destruct (IH b) as [-> ->]; auto.
Qed.
Lemma no_comma_end a b : a ++ "]" = b ++ "]" -> a = b.
Proof.
  revert b. induction a as [|x a IH]; intros [|y b] H; cbn in *; auto.
  - injection H as _ H. now destruct b.
  - injection H as _ H. now destruct a.
  - injection H as -> H. f_equal. auto.
Qed.
Lemma comma_absent a b c : no_comma a -> a ++ "]" = b ++ String ","%char c -> False.
Proof.
  intros Ha H. assert (no_comma (a ++ "]")).
  { clear H. induction a as [|x a IH]; cbn.
    - constructor; [discriminate|constructor].
    - inversion Ha. constructor; auto. apply IH. assumption. }
  rewrite H in H0. clear - H0. induction b as [|x b IH]; cbn in *; inversion H0; auto.
Qed.

Lemma aligned_no_comma w s : no_comma s -> no_comma (right_aligned w s).
Proof.
  intros H. unfold right_aligned, spaces. induction (w - String.length s); cbn; [exact H|].
  constructor; [discriminate|]. exact IHn.
Qed.
Lemma plain_no_comma s : plain s -> no_comma s.
Proof. apply Forall_impl. tauto. Qed.
Lemma aligned_inj w s t : plain s -> plain t -> right_aligned w s = right_aligned w t -> s = t.
Proof.
  intros Hs Ht. unfold right_aligned. generalize (w - String.length s) (w - String.length t).
  assert (G : forall n (s t : string), plain s -> plain t -> s <> "" -> s = spaces n ++ t -> s = t).
  { clear. intros [|n] s t Hs Ht N E; [exact E|]. unfold spaces in E. cbn in E. subst s. inversion Hs. tauto. }
  induction n as [|n IH]; intros [|m].
  - auto.
  - unfold spaces. cbn. intros ->. inversion Hs. tauto.
  - unfold spaces. cbn. intros <-. inversion Ht. tauto.
  - unfold spaces. cbn. intros H. injection H. apply IH.
Qed.
Lemma concat_cut f1 f2 : Forall no_comma f1 -> Forall no_comma f2 -> f1 <> [] -> f2 <> [] ->
  concat ", " f1 ++ "]" = concat ", " f2 ++ "]" -> f1 = f2.
Proof.
  revert f2. induction f1 as [|a f1 IH]; intros [|b f2] H1 H2 N1 N2 E; try congruence.
  inversion H1 as [|? ? A1 A2]. inversion H2 as [|? ? B1 B2]. subst. destruct f1 as [|a' f1], f2 as [|b' f2].
  - cbn in E. now apply no_comma_end in E as ->.
  - exfalso. change (concat ", " (b :: b' :: f2)) with (b ++ ", " ++ concat ", " (b' :: f2)) in E.
    rewrite !app_assoc_s in E. apply (comma_absent a _ _ A1 E).
  - exfalso. change (concat ", " (a :: a' :: f1)) with (a ++ ", " ++ concat ", " (a' :: f1)) in E.
    rewrite !app_assoc_s in E. symmetry in E. apply (comma_absent b _ _ B1 E).
  - change (concat ", " (a :: a' :: f1)) with (a ++ ", " ++ concat ", " (a' :: f1)) in E.
    change (concat ", " (b :: b' :: f2)) with (b ++ ", " ++ concat ", " (b' :: f2)) in E.
    rewrite !app_assoc_s in E. change (", " ++ ?x) with (String ","%char (String " "%char x)) in E.
    apply no_comma_cut in E as [-> E]; auto. injection E as E. f_equal. apply IH; auto; discriminate.
Qed.

Lemma map_inj_in {A B C} (f g : A -> B) (h : B -> C) (l l' : list A) :
  (forall x y, In x l -> In y l' -> h (f x) = h (g y) -> f x = g y) ->
  map (fun x => h (f x)) l = map (fun x => h (g x)) l' -> map f l = map g l'.
Proof.
  revert l'. induction l as [|a l IH]; intros [|b l'] H E; cbn in *; try discriminate; auto.
  injection E as E1 E2. f_equal; auto.
Qed.

Lemma Ok_inj {A} (a b : A) : Ok a = Ok b -> a = b.
Proof. congruence. Qed.
Lemma toString_bound T (P : Printable T) d (p : point T d) prec s : toString p prec = Ok s -> (prec + 2 <= 2147483647)%Z.
Proof.
  unfold toString, int_plus_2. change max_int with 2147483647%Z. intros E.
  destruct (Z.leb_spec (prec + 2) 2147483647); [assumption|]. discriminate.
Qed.

Lemma c88_read_back : forall T (printed : Z -> T -> string) d e (p : point T d) (q : point T e) prec s, 0 < d -> 0 < e ->
  (forall x, In x (plist d p) -> plain (printed prec x)) -> (forall x, In x (plist e q) -> plain (printed prec x)) ->
  toString (P := insert_number printed) p prec = Ok s -> toString (P := insert_number printed) q prec = Ok s ->
  d = e /\ map (printed prec) (plist d p) = map (printed prec) (plist e q).
Proof.
  intros T printed d e p q prec s Hd He Hp Hq E1 E2.
  assert (B := toString_bound _ _ _ _ _ _ E1).
  rewrite c88_text in E1, E2 by auto. apply Ok_inj in E1, E2.
  assert (E : bracketed (map (fun x => right_aligned (Z.to_nat (prec + 2)) (printed prec x)) (plist d p)) =
    bracketed (map (fun x => right_aligned (Z.to_nat (prec + 2)) (printed prec x)) (plist e q))) by (rewrite E1; symmetry; exact E2).
  clear E1 E2 s.
  assert (M : map (printed prec) (plist d p) = map (printed prec) (plist e q)).
  { set (w := Z.to_nat (prec + 2)) in *.
    apply (map_inj_in (printed prec) (printed prec) (right_aligned w)).
    { intros x y Hx Hy. apply aligned_inj; auto. }
    apply concat_cut.
    - apply Forall_map. apply Forall_forall. intros x Hx. apply aligned_no_comma, plain_no_comma; auto.
    - apply Forall_map. apply Forall_forall. intros x Hx. apply aligned_no_comma, plain_no_comma; auto.
    - intros N. apply map_eq_nil in N. assert (L := plist_length d p). rewrite N in L. cbn in L. lia.
    - intros N. apply map_eq_nil in N. assert (L := plist_length e q). rewrite N in L. cbn in L. lia.
    - unfold bracketed in E. apply app_inj_s in E. exact E. }
  split; [|exact M]. apply (f_equal (@Datatypes.length string)) in M. now rewrite !map_length, !plist_length in M.
Qed.

Lemma decimal_inj x y : decimal x = decimal y -> x = y.
Proof.
  unfold decimal. intros H. apply (f_equal NilZero.int_of_string) in H.
  assert (G : forall z, NilZero.int_of_string (NilZero.string_of_int (Z.to_int z)) = Some (Z.to_int z)).
  { intros z. apply NilZero.isi; destruct z; cbn; try discriminate; intros E; injection E; apply DecimalPos.Unsigned.to_uint_nonnil. }
  rewrite !G in H. injection H. apply to_int_inj.
Qed.
Lemma decimal_plain x : plain (decimal x).
Proof.
  assert (G : forall u, plain (NilEmpty.string_of_uint u)).
  { induction u; cbn; constructor; auto; split; discriminate. }
  assert (G0 : forall u, plain (NilZero.string_of_uint u)).
  { intros u. unfold NilZero.string_of_uint. destruct u; try apply G. constructor; [split; discriminate|constructor]. }
  unfold decimal, NilZero.string_of_int. destruct (Z.to_int x); [apply G0|].
  constructor; [split; discriminate|]. apply G0.
Qed.

Lemma plist_inj T d (p q : point T d) : plist d p = plist d q -> p = q.
Proof.
  induction d as [|d IH]; cbn; intros H.
  - now destruct p, q.
  - destruct p, q. cbn in H. injection H as -> H. f_equal. auto.
Qed.
Lemma c88_integers : forall d (p q : point Z d) prec s, 0 < d ->
  toString p prec = Ok s -> toString q prec = Ok s -> p = q.
Proof.
  intros d p q prec s Hd Ep Eq.
  destruct (c88_read_back Z (fun _ => decimal) d d p q prec s Hd Hd) as [_ M]; auto; try (intros; apply decimal_plain).
  apply plist_inj. revert M. generalize (plist d p) (plist d q).
  induction l as [|a l IH]; intros [|b l'] H; cbn in *; try discriminate; auto.
  injection H as H1 H2. apply decimal_inj in H1 as ->. f_equal. auto.
Qed.

Lemma c88_stream : forall T (printed : Z -> T -> string) d (p : point T d) os, 0 < d ->
  let s := bracketed (map (fun x => right_aligned 8 (printed 6%Z x)) (plist d p)) in
  let fill := string_of_list_ascii (repeat (os_fill os) (Z.to_nat (os_width os) - String.length s)) in
  point_insert (P := insert_number printed) p os =
    Ok (mkStream (os_text os ++ if os_left os then s ++ fill else fill ++ s) 0 (os_precision os) (os_left os) (os_fill os)).
Proof.
  intros T printed d p os Hd s fill. unfold point_insert. rewrite c88_text by lia. cbn [bind].
  change (Z.to_nat (6 + 2)) with 8. fold s. unfold put. repeat f_equal.
  assert (G : forall n c, chars n c = string_of_list_ascii (repeat c n)) by (induction n; cbn; congruence).
  rewrite G. reflexivity.
Qed.

Lemma c88_AD : forall S (printed : Z -> S -> string) (a : adt S) os,
  let s := printed (os_precision os) (ad_v a) in
  let fill := string_of_list_ascii (repeat (os_fill os) (Z.to_nat (os_width os) - String.length s)) in
  insert (Printable := Printable_AD (P := insert_number printed)) a os =
    mkStream (os_text os ++ if os_left os then s ++ fill else fill ++ s) 0 (os_precision os) (os_left os) (os_fill os).
Proof.
  intros S printed a os s fill. unfold insert, Printable_AD, insert, insert_number, put. fold s.
  assert (G : forall n c, chars n c = string_of_list_ascii (repeat c n)) by (induction n; cbn; congruence).
  rewrite G. reflexivity.
Qed.
Lemma c88_AD_point : forall S (printed : Z -> S -> string) d (p : point (adt S) d) (q : point S d) prec,
  map ad_v (plist d p) = plist d q ->
  toString (P := Printable_AD (P := insert_number printed)) p prec = toString (P := insert_number printed) q prec.
Proof.
  intros S printed d p q prec H.
  change (@Printable_AD S (insert_number printed)) with (insert_number (fun prec (a : adt S) => printed prec (ad_v a))).
  destruct d as [|d]; [now rewrite !c88_no_coordinate|].
  destruct (Z_le_gt_dec (prec + 2) 2147483647) as [L|L].
  - rewrite !c88_text by lia. rewrite <- H, map_map. reflexivity.
  - unfold toString, int_plus_2, max_int. replace (prec + 2 <=? 2147483647)%Z with false by (symmetry; apply Z.leb_gt; lia). reflexivity.
Qed.
