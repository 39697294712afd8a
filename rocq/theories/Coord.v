(** Coordinates of points; coordinate selection is linear. *)
From Coq Require Import Arith Lia List ZArith NArith Bool Ring Field.
From Verif Require Import Prelude Scalar Spec Sums.
Import ListNotations.

(** Coordinate [k] of a point ([0] outside the range, never used there). *)
Definition coord {T} {o : SOps T} (d : nat) (p : point T d) (k : nat) : T := nth k (plist d p) s0.

Section Coord.
Context {T : Type} {o : SOps T} {F : SField T}.
Add Field Tfield : (@sf_th T o F).

Lemma plist_length d (p : point T d) : length (plist d p) = d.
Proof. induction d; simpl; auto. Qed.

Lemma pget_ok d (p : point T d) k : k < d -> pget d p k = Ok (coord d p k).
Proof.
  unfold coord. revert k; induction d; intros k Hk; [lia|]. simpl. destruct k; auto.
  apply IHd. lia.
Qed.
Lemma pget_ub d (p : point T d) k : d <= k -> pget d p k = UB.
Proof.
  revert k; induction d; intros k Hk; simpl; auto. destruct k; [lia|]. apply IHd. lia.
Qed.

Lemma pset_ok d (p : point T d) k x :
  k < d -> exists q, pset d p k x = Ok q /\ plist d q = upd_list (plist d p) k x.
Proof.
  revert k; induction d; intros k Hk; [lia|]. simpl. destruct k; [eexists; split; eauto|].
  destruct (IHd (snd p) k) as (q & E & H); [lia|]. simpl. rewrite E. cbn [bind]. eexists; split; [reflexivity|].
  simpl. now rewrite H.
Qed.

Lemma coord_pset d (p q : point T d) k x j :
  pset d p k x = Ok q -> k < d -> coord d q j = if j =? k then x else coord d p j.
Proof.
  intros E Hk. destruct (pset_ok d p k x Hk) as (q' & E' & H). rewrite E in E'.
  injection E' as <-. unfold coord. rewrite H. apply nth_upd. now rewrite plist_length.
Qed.

Lemma point_ext d (p q : point T d) :
  (forall k, k < d -> coord d p k = coord d q k) -> p = q.
Proof.
  unfold coord. induction d; intros H; [destruct p, q; auto|].
  destruct p as [a p], q as [b q]. f_equal.
  - apply (H 0). lia.
  - apply IHd. intros k Hk. apply (H (S k)). lia.
Qed.

Lemma coord_0 d k : coord d (v0 : point T d) k = s0.
Proof. unfold coord. revert k; induction d; intros [|k]; simpl; auto. Qed.
Lemma coord_add d (p q : point T d) k : coord d (vadd p q) k = sadd (coord d p k) (coord d q k).
Proof.
  unfold coord. revert k; induction d; intros [|k]; simpl; auto; try ring; apply IHd.
Qed.
Lemma coord_sub d (p q : point T d) k : coord d (vsub p q) k = ssub (coord d p k) (coord d q k).
Proof.
  unfold coord. revert k; induction d; intros [|k]; simpl; auto; try ring; apply IHd.
Qed.
Lemma coord_scale d x (p : point T d) k : coord d (vscale x p) k = smul x (coord d p k).
Proof.
  unfold coord. revert k; induction d; intros [|k]; simpl; auto; try ring; apply IHd.
Qed.
Lemma coord_opp d (p : point T d) k : coord d (vopp p) k = sopp (coord d p k).
Proof.
  unfold coord. revert k; induction d; intros [|k]; simpl; auto; try ring; apply IHd.
Qed.
Lemma coord_const d x k : k < d -> coord d (pconst d x) k = x.
Proof. unfold coord. revert k; induction d; intros [|k] H; simpl; auto; try lia. apply IHd; lia. Qed.
Lemma coord_pmap2 d f (p q : point T d) k :
  k < d -> coord d (pmap2 d f p q) k = f (coord d p k) (coord d q k).
Proof.
  unfold coord. revert k; induction d; intros [|k] H; simpl; auto; try lia. apply IHd; lia.
Qed.
Lemma coord_pmap d f (p : point T d) k :
  k < d -> coord d (pmap d f p) k = f (coord d p k).
Proof.
  unfold coord. revert k; induction d; intros [|k] H; simpl; auto; try lia. apply IHd; lia.
Qed.

Lemma coord_vsum d n f k :
  coord d (vsum (T:=T) n f) k = ssum n (fun i => coord d (f i) k).
Proof.
  induction n; cbn [vsum ssum]; [apply coord_0|]. rewrite coord_add, IHn. reflexivity.
Qed.
Lemma coord_bezier d degs (xs : list T) f k :
  coord d (bezier degs xs f) k = bezier degs xs (fun i => coord d (f i) k).
Proof.
  revert xs f; induction degs as [|p degs IH]; intros xs f; [reflexivity|].
  destruct xs as [|x xs]; [reflexivity|]. cbn [bezier]. rewrite coord_vsum, ssum_vsum.
  apply vsum_ext. intros i Hi. rewrite coord_scale, IH. reflexivity.
Qed.
End Coord.
