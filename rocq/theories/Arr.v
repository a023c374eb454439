(** One- and two-dimensional numpy arrays and Python loops, as used by the tree models.
    Out-of-range accesses raise IndexError, as numpy does (negative indices are not used by
    the modelled code unless a definition says so). *)
From Coq Require Import List Arith Lia.
From Verif Require Import Py.
Import ListNotations.
Open Scope py_scope.

Section Arr.
Context {A : Type}.

(** [l[i]] *)
Definition get (l : list A) (i : nat) : res A := of_opt IndexError (nth_error l i).

Fixpoint upd_l (l : list A) (i : nat) (v : A) : list A :=
  match l, i with
  | [], _ => []
  | _ :: l', O => v :: l'
  | x :: l', S i' => x :: upd_l l' i' v
  end.

(** [l[i] = v] *)
Definition upd (l : list A) (i : nat) (v : A) : res (list A) :=
  if i <? length l then Ok (upd_l l i v) else Err IndexError.

End Arr.

Section Arr2.
Context {A : Type}.

(** [numpy.reshape(l, (r, c))] *)
Fixpoint chunks (l : list A) (r c : nat) : list (list A) :=
  match r with
  | O => []
  | S r' => firstn c l :: chunks (skipn c l) r' c
  end.
Definition reshape (l : list A) (r c : nat) : res (list (list A)) :=
  if length l =? r * c then Ok (chunks l r c) else Err ValueError.

(** [m.T] of a matrix with rows [m] and [c] columns *)
Definition transpose (c : nat) (m : list (list A)) : list (list A) :=
  map (fun j => flat_map (fun row => match nth_error row j with Some x => [x] | None => [] end) m)
      (seq 0 c).

(** [m[i][j]] *)
Definition mget (m : list (list A)) (i j : nat) : res A :=
  row <- get m i ;; get row j.

(** [m[i, j] = v] *)
Definition mupd (m : list (list A)) (i j : nat) (v : A) : res (list (list A)) :=
  row <- get m i ;; row' <- upd row j v ;; upd m i row'.
End Arr2.

(** [for x in xs: st = body(x, st)] *)
Fixpoint for_ {B St : Type} (xs : list B) (body : B -> St -> res St) (st : St) : res St :=
  match xs with
  | [] => Ok st
  | x :: xs' => st' <- body x st ;; for_ xs' body st'
  end.

(* ------------------------------------------------------------------ *)
(** * Facts *)

Section Facts.
Context {A : Type}.
Implicit Types l : list A.

Lemma upd_l_length l i v : length (upd_l l i v) = length l.
Proof. revert i; induction l; intros [|i]; simpl; auto. Qed.

Lemma nth_error_upd_eq l i v : i < length l -> nth_error (upd_l l i v) i = Some v.
Proof.
  revert i; induction l; intros [|i]; simpl; intros; try lia; auto.
  apply IHl; lia.
Qed.

Lemma nth_error_upd_neq l i k v : i <> k -> nth_error (upd_l l i v) k = nth_error l k.
Proof.
  revert i k; induction l; intros [|i] [|k]; simpl; intros; try lia; auto.
Qed.

Lemma get_Ok l i x : get l i = Ok x <-> nth_error l i = Some x.
Proof.
  unfold get, of_opt. destruct (nth_error l i); split; intros [= ->]; auto.
Qed.

Lemma upd_Ok l i v : i < length l -> upd l i v = Ok (upd_l l i v).
Proof. intro H. unfold upd. apply Nat.ltb_lt in H. now rewrite H. Qed.

Lemma nth_error_rev l k : k < length l -> nth_error (rev l) k = nth_error l (length l - 1 - k).
Proof.
  intro H. destruct l as [|d l0] eqn:E; [simpl in H; lia|]. rewrite <- E in *.
  rewrite (nth_error_nth' (rev l) d) by now rewrite rev_length.
  rewrite rev_nth by auto. rewrite <- (nth_error_nth' l d) by lia. f_equal; lia.
Qed.

Lemma chunks_length l r c : length (chunks l r c) = r.
Proof. revert l; induction r; simpl; auto. Qed.

Lemma chunks_nth l r c i row :
  nth_error (chunks l r c) i = Some row -> row = firstn c (skipn (i * c) l).
Proof.
  revert l i; induction r; intros l [|i]; simpl; try discriminate.
  - now intros [= <-].
  - intro H. apply IHr in H. rewrite H. f_equal. clear.
    revert l. induction c; intros; simpl.
    + now replace (i * 0) with 0 by lia.
    + destruct l; simpl; [now rewrite skipn_nil|].
      replace (i * S c) with (i * S c) by lia.
      generalize (i * S c). clear. revert l. induction c; intros; simpl; auto.
      destruct l; [now rewrite !skipn_nil|]. simpl. apply IHc.
Qed.

Lemma nth_error_skipn l k j : nth_error (skipn k l) j = nth_error l (k + j).
Proof. revert l; induction k; intros [|x l]; simpl; auto. now destruct j. Qed.

Lemma nth_error_firstn l k j : j < k -> nth_error (firstn k l) j = nth_error l j.
Proof.
  revert l j; induction k; intros [|x l] [|j]; simpl; intros; try lia; auto. apply IHk; lia.
Qed.

Lemma mget_chunks l r c i j :
  length l = r * c -> i < r -> j < c -> mget (chunks l r c) i j = get l (i * c + j).
Proof.
  intros L Hi Hj. unfold mget, get at 1.
  destruct (nth_error (chunks l r c) i) as [row|] eqn:E; simpl.
  - apply chunks_nth in E. subst row. unfold get. f_equal.
    rewrite nth_error_firstn by auto. now rewrite nth_error_skipn.
  - apply nth_error_None in E. rewrite chunks_length in E. lia.
Qed.

Lemma chunks_row_length l r c i row :
  length l = r * c -> nth_error (chunks l r c) i = Some row -> length row = c.
Proof.
  intros L E. assert (i < r).
  { assert (i < length (chunks l r c)) by (apply nth_error_Some; congruence).
    now rewrite chunks_length in *. }
  apply chunks_nth in E. subst row. rewrite firstn_length, skipn_length.
  assert (S i * c <= r * c) by (apply Nat.mul_le_mono_r; lia). lia.
Qed.

Lemma reshape_spec l r c :
  length l = r * c ->
  exists m, reshape l r c = Ok m /\ length m = r /\
    (forall i row, nth_error m i = Some row -> length row = c) /\
    forall i j, i < r -> j < c -> mget m i j = get l (i * c + j).
Proof.
  intro L. exists (chunks l r c). split.
  - unfold reshape. apply Nat.eqb_eq in L. now rewrite L.
  - split; [apply chunks_length|]. split.
    + intros. eapply chunks_row_length; eauto.
    + intros. now apply mget_chunks.
Qed.

Lemma nth_error_map_seq {B} (f : nat -> B) s c i :
  i < c -> nth_error (map f (seq s c)) i = Some (f (s + i)).
Proof.
  intro H. rewrite nth_error_map. rewrite nth_error_nth' with (d := 0) by now rewrite seq_length.
  now rewrite seq_nth.
Qed.

Lemma flat_col (m : list (list A)) c j :
  (forall i row, nth_error m i = Some row -> length row = c) -> j < c ->
  forall i, nth_error (flat_map (fun row => match nth_error row j with Some x => [x] | None => [] end) m) i
            = match nth_error m i with Some row => nth_error row j | None => None end.
Proof.
  intros L Hj. induction m as [|row m IH]; intros [|i]; simpl; auto.
  - assert (length row = c) by (apply (L 0); auto).
    destruct (nth_error row j) eqn:E; simpl; auto. apply nth_error_None in E. lia.
  - assert (length row = c) by (apply (L 0); auto).
    destruct (nth_error row j) eqn:E.
    + simpl. apply IH. intros k r0 Hk. apply (L (S k)). auto.
    + apply nth_error_None in E. lia.
Qed.

Lemma flat_col_length (m : list (list A)) c j :
  (forall i row, nth_error m i = Some row -> length row = c) -> j < c ->
  length (flat_map (fun row => match nth_error row j with Some x => [x] | None => [] end) m)
  = length m.
Proof.
  intros L Hj. induction m as [|row m IH]; simpl; auto.
  assert (length row = c) by (apply (L 0); auto).
  destruct (nth_error row j) eqn:E.
  - simpl. f_equal. apply IH. intros k r0 Hk. apply (L (S k)). auto.
  - apply nth_error_None in E. lia.
Qed.

Lemma transpose_spec (m : list (list A)) r c :
  length m = r -> (forall i row, nth_error m i = Some row -> length row = c) ->
  length (transpose c m) = c /\
  (forall i row, nth_error (transpose c m) i = Some row -> length row = r) /\
  forall i j, i < c -> j < r -> mget (transpose c m) i j = mget m j i.
Proof.
  intros Lm Lr. unfold transpose. split; [|split].
  - now rewrite map_length, seq_length.
  - intros i row Hi.
    assert (i < c).
    { assert (i < length (transpose c m)) by (apply nth_error_Some; unfold transpose; congruence).
      unfold transpose in *. now rewrite map_length, seq_length in *. }
    rewrite nth_error_map_seq in Hi by auto. injection Hi as <-. simpl.
    rewrite (flat_col_length m c) by auto. auto.
  - intros i j Hi Hj. unfold mget, get at 1. rewrite nth_error_map_seq by auto. simpl.
    unfold get. rewrite (flat_col m c) by auto.
    destruct (nth_error m j) eqn:E; simpl; auto.
Qed.


Lemma list_ext l1 l2 :
  length l1 = length l2 -> (forall i, i < length l1 -> nth_error l1 i = nth_error l2 i) -> l1 = l2.
Proof.
  revert l2; induction l1 as [|a l1 IH]; intros [|b l2]; simpl; intros L H; try lia; auto.
  f_equal.
  - specialize (H 0 ltac:(lia)). simpl in H. congruence.
  - apply IH; [lia|]. intros i Hi. apply (H (S i)). lia.
Qed.

Lemma nth_error_repeat' (x : A) k i : i < k -> nth_error (repeat x k) i = Some x.
Proof. revert i; induction k; intros [|i]; simpl; intros; try lia; auto. apply IHk; lia. Qed.
End Facts.

Lemma for_app {B St} (xs ys : list B) (body : B -> St -> res St) st :
  for_ (xs ++ ys) body st = bind (for_ xs body st) (for_ ys body).
Proof.
  revert st; induction xs; intros; simpl; auto.
  destruct (body a st); simpl; auto.
Qed.

(** Invariant rule for [for i in range(s, s+k)]. *)
Lemma for_seq_inv {St} (P : nat -> St -> Prop) (body : nat -> St -> res St) s k st :
  P s st ->
  (forall i st, s <= i < s + k -> P i st -> exists st', body i st = Ok st' /\ P (S i) st') ->
  exists st', for_ (seq s k) body st = Ok st' /\ P (s + k) st'.
Proof.
  revert s st; induction k; intros s st H0 Hs; simpl.
  - exists st. now rewrite Nat.add_0_r.
  - destruct (Hs s st) as (st1 & E & P1); [lia|auto|]. rewrite E. simpl.
    destruct (IHk (S s) st1) as (st2 & E2 & P2); auto.
    { intros i st0 Hi. apply Hs. lia. }
    exists st2. split; auto. now replace (s + S k) with (S s + k) by lia.
Qed.

(** Invariant rule for [for j in range(0, n)[::-1]]. *)
Lemma for_rev_inv {St} (P : nat -> St -> Prop) (body : nat -> St -> res St) n st :
  P n st ->
  (forall j st, j < n -> P (S j) st -> exists st', body j st = Ok st' /\ P j st') ->
  exists st', for_ (rev (seq 0 n)) body st = Ok st' /\ P 0 st'.
Proof.
  revert st; induction n; intros st H0 Hs.
  - exists st; auto.
  - rewrite seq_S. rewrite rev_app_distr. simpl.
    destruct (Hs n st) as (st1 & E & P1); [lia|auto|]. rewrite E. simpl.
    apply IHn; auto.
Qed.
