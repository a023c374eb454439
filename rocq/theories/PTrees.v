(** The in-place sweeps of the tree pricers compute the backward recursion, and the returned
    matrices have the documented layout.  Everything here holds for every arithmetic [Num]. *)
From Coq Require Import List Arith ZArith QArith String Bool Lia.
From Verif Require Import Num Py Arr MTrees STrees.
Import ListNotations.
Open Scope py_scope.
Open Scope nat_scope.

(* ------------------------------------------------------------------ rows stacked in [tr] *)
Section Rows.
Context {A : Type} (row : nat -> list A).

(** rows k-1, ..., 0 *)
Fixpoint stack (k : nat) : list A := match k with O => [] | S k' => row k' ++ stack k' end.

Lemma stack_mono a b : a <= b -> List.length (stack a) <= List.length (stack b).
Proof.
  induction 1; auto. change (stack (S m)) with (row m ++ stack m). rewrite app_length. lia.
Qed.

Lemma stack_rev m c k :
  c < m -> k < List.length (row c) ->
  nth_error (rev (stack m)) (List.length (stack c) + k) = nth_error (rev (row c)) k.
Proof.
  induction m; intros Hc Hk; [lia|]. cbn [stack]. rewrite rev_app_distr.
  destruct (Nat.eq_dec c m) as [->|].
  - rewrite nth_error_app2 by (rewrite rev_length; lia).
    rewrite rev_length. f_equal; lia.
  - rewrite nth_error_app1.
    + apply IHm; lia.
    + rewrite rev_length. assert (List.length (stack (S c)) <= List.length (stack m)).
      { apply stack_mono. lia. }
      cbn [stack] in H. rewrite app_length in H. lia.
Qed.
End Rows.

(* ------------------------------------------------------------------ binomial sweep *)
Section Bi.
Context {T : Type} {N : Num T}.

(** value with [m] steps left at the node with [i] up moves; [f j i vu vd] is the value at time j *)
Fixpoint bnode (n : nat) (term : nat -> T) (f : nat -> nat -> T -> T -> T) (m i : nat) : T :=
  match m with
  | O => term i
  | S m' => f (n - m) i (bnode n term f m' (i + 1)) (bnode n term f m' i)
  end.

Definition bi_inner (f : nat -> nat -> T -> T -> T) (j i : nat) (st : list T * list T)
  : res (list T * list T) :=
  let '(ov, tr) := st in
  vu <- get ov (i + 1) ;;
  vd <- get ov i ;;
  ov <- upd ov i (f j i vu vd) ;;
  v <- get ov i ;;
  Ok (ov, tr ++ [v]).
Definition bi_outer f (n j : nat) (st : list T * list T) : res (list T * list T) :=
  let '(ov, tr) := st in
  let tr := tr ++ repeat (ofZ 0) (n - j) in
  for_ (seq 0 (j + 1)) (bi_inner f j) (ov, tr).

Definition bi_sweep (f : nat -> nat -> T -> T -> T) (OptionValue : list T) (n : nat) (tree : bool)
  : res (list T + list (list T)) :=
  st <- for_ (rev (seq 0 n)) (bi_outer f n) (OptionValue, OptionValue) ;;
  let '(ov, tr) := st in
  if tree then
    m <- reshape (rev tr) (n + 1) (n + 1) ;; Ok (inr (transpose (n + 1) m))
  else Ok (inl ov).

Definition brow n term f (c : nat) : list T :=
  repeat (ofZ 0) (n - c) ++ map (bnode n term f (n - c)) (seq 0 (c + 1)).

Lemma brow_length n term f c : c <= n -> List.length (brow n term f c) = n + 1.
Proof. intro. unfold brow. rewrite app_length, repeat_length, map_length, seq_length. lia. Qed.

Lemma bstack_length n term f k : k <= n + 1 -> List.length (stack (brow n term f) k) = k * (n + 1).
Proof.
  induction k; intro; auto. cbn [stack]. rewrite app_length, IHk by lia.
  rewrite brow_length by lia. lia.
Qed.

Lemma sweep_loop f term n (ov : list T) :
  List.length ov = n + 1 -> (forall i, i <= n -> nth_error ov i = Some (term i)) ->
  exists ov',
    for_ (rev (seq 0 n)) (bi_outer f n) (ov, ov) = Ok (ov', stack (brow n term f) (n + 1))
    /\ nth_error ov' 0 = Some (bnode n term f n 0).
Proof.
  intros L V.
  destruct (for_rev_inv
    (fun j (st : list T * list T) => let '(ov, tr) := st in
       List.length ov = n + 1 /\
       (forall i, i <= j -> nth_error ov i = Some (bnode n term f (n - j) i)) /\
       tr ++ stack (brow n term f) j = stack (brow n term f) (n + 1))
    (bi_outer f n)
    n (ov, ov)) as ([ov' tr'] & E & (L' & V' & T')).
  - split; [auto|]. split.
    + intros. rewrite Nat.sub_diag. cbn. auto.
    + replace (n + 1) with (S n) by lia. cbn [stack]. f_equal.
      unfold brow. rewrite Nat.sub_diag. cbn [repeat app].
      apply list_ext; [rewrite map_length, seq_length; auto|].
      intros i Hi. rewrite V by lia. rewrite nth_error_map_seq by lia. auto.
  - intros j [ov1 tr1] Hj (L1 & V1 & T1). unfold bi_outer. cbv zeta.
    destruct (for_seq_inv
      (fun i (st : list T * list T) => let '(ov, tr) := st in
         List.length ov = n + 1 /\
         (forall k, k < i -> nth_error ov k = Some (bnode n term f (n - j) k)) /\
         (forall k, i <= k <= S j -> nth_error ov k = Some (bnode n term f (n - S j) k)) /\
         tr = (tr1 ++ repeat (ofZ 0) (n - j)) ++ map (bnode n term f (n - j)) (seq 0 i))
      (bi_inner f j) 0 (j + 1) (ov1, tr1 ++ repeat (ofZ 0) (n - j)))
      as ([ov2 tr2] & E2 & (L2 & V2 & _ & T2)).
    + split; [auto|]. split; [intros; lia|]. split; [intros; apply V1; lia|].
      cbn. now rewrite app_nil_r.
    + intros i [ov2 tr2] Hi (L2 & V2 & W2 & T2). unfold bi_inner.
      assert (G1 : get ov2 (i + 1) = Ok (bnode n term f (n - S j) (i + 1)))
        by (apply get_Ok, W2; lia).
      assert (G0 : get ov2 i = Ok (bnode n term f (n - S j) i)) by (apply get_Ok, W2; lia).
      rewrite G1, G0. cbn [bind].
      assert (EN : f j i (bnode n term f (n - S j) (i + 1)) (bnode n term f (n - S j) i)
                   = bnode n term f (n - j) i).
      { replace (n - j) with (S (n - S j)) by lia. cbn [bnode].
        f_equal. lia. }
      rewrite EN. rewrite upd_Ok by lia. cbn [bind].
      assert (G : get (upd_l ov2 i (bnode n term f (n - j) i)) i = Ok (bnode n term f (n - j) i)).
      { apply get_Ok, nth_error_upd_eq. lia. }
      rewrite G. cbn [bind]. eexists; split; [reflexivity|]. cbv beta iota.
      split; [now rewrite upd_l_length|]. split; [|split].
      * intros k Hk. destruct (Nat.eq_dec k i) as [->|].
        -- apply nth_error_upd_eq. lia.
        -- rewrite nth_error_upd_neq by lia. apply V2. lia.
      * intros k Hk. rewrite nth_error_upd_neq by lia. apply W2. lia.
      * rewrite T2. rewrite <- app_assoc. f_equal. rewrite seq_S, map_app. reflexivity.
    + exists (ov2, tr2). rewrite E2. split; [reflexivity|]. cbv beta iota.
      rewrite Nat.add_0_l in *.
      split; [auto|]. split; [intros; apply V2; lia|].
      rewrite <- T1, T2. cbn [stack]. unfold brow. now rewrite <- !app_assoc.
  - exists ov'. rewrite E. cbn [stack] in T'. rewrite app_nil_r in T'. rewrite T'.
    split; auto. rewrite V' by lia. now rewrite Nat.sub_0_r.
Qed.

Lemma sweep_price f term n (ov : list T) :
  List.length ov = n + 1 -> (forall i, i <= n -> nth_error ov i = Some (term i)) ->
  exists ov', bi_sweep f ov n false = Ok (inl ov') /\ nth_error ov' 0 = Some (bnode n term f n 0).
Proof.
  intros L V. destruct (sweep_loop f term n ov L V) as (ov' & E & G).
  exists ov'. unfold bi_sweep. rewrite E. auto.
Qed.

(** shape and entries of the tree matrix *)
Definition is_matrix {A} (m : list (list A)) (r c : nat) :=
  List.length m = r /\ forall i row, nth_error m i = Some row -> List.length row = c.

Lemma sweep_tree f term n (ov : list T) :
  List.length ov = n + 1 -> (forall i, i <= n -> nth_error ov i = Some (term i)) ->
  exists m, bi_sweep f ov n true = Ok (inr m) /\ is_matrix m (n + 1) (n + 1) /\
    (forall i c, i <= c <= n -> mget m i c = Ok (bnode n term f (n - c) (c - i))) /\
    (forall i c, c < i <= n -> mget m i c = Ok (ofZ 0)).
Proof.
  intros L V. destruct (sweep_loop f term n ov L V) as (ov' & E & _).
  unfold bi_sweep. rewrite E. cbn [bind].
  set (tr := stack (brow n term f) (n + 1)).
  assert (Lt : List.length (rev tr) = (n + 1) * (n + 1))
    by (unfold tr; rewrite rev_length, bstack_length; lia).
  destruct (reshape_spec _ _ _ Lt) as (m & Em & Lm & Rm & Gm).
  rewrite Em. cbn [bind]. exists (transpose (n + 1) m).
  destruct (transpose_spec m (n + 1) (n + 1) Lm Rm) as (L2 & R2 & G2).
  split; [reflexivity|]. split; [split; auto|].
  assert (Z : forall i c, i <= n -> c <= n ->
    mget (transpose (n + 1) m) i c = get (brow n term f c) (n - i)).
  { intros i c Hi Hc. rewrite G2, Gm by lia. unfold get. f_equal.
    rewrite <- (bstack_length n term f c) by lia. unfold tr.
    rewrite stack_rev by (rewrite ?brow_length; lia).
    rewrite nth_error_rev by (rewrite brow_length; lia). rewrite brow_length by lia.
    f_equal. lia. }
  split; intros i c H; rewrite Z by lia; apply get_Ok; unfold brow.
  - rewrite nth_error_app2 by (rewrite repeat_length; lia). rewrite repeat_length.
    rewrite nth_error_map_seq by lia. f_equal. f_equal. lia.
  - rewrite nth_error_app1 by (rewrite repeat_length; lia). apply nth_error_repeat'. lia.
Qed.

(* ------------------------------------------------------------------ the model in these terms *)
(** max(x, 0) as the code writes it *)
Definition clip (x : T) : T := ((absn x + x) / ofZ 2)%num.

(** exercise value at time j after i up moves *)
Definition bi_ex (z : Z) (S K u d : T) (j i : nat) : T :=
  (ofZ z * (S * u ^ i * d ^ (j - i) - K))%num.

(** value with [m] steps left after [i] up moves, for the model [k] and option [o] *)
Definition bi_value (k : bi_model) (o : TreeOption T) (z : Z) (amer : bool) (m i : nat) : T :=
  bnode (to_n o)
    (fun i => clip (bi_ex z (to_S o) (to_K o) (bi_u k o) (bi_d k o) (to_n o) i))
    (fun j i vu vd =>
       let cont := ((bi_p k o * vu + (ofZ 1 - bi_p k o) * vd) * bi_Df o)%num in
       if amer then pymax (bi_ex z (to_S o) (to_K o) (bi_u k o) (bi_d k o) j i) cont else cont)
    m i.

Lemma bi_terminal_nth z n S K u d i :
  i <= n -> nth_error (bi_terminal z n S K u d) i = Some (clip (bi_ex z S K u d n i)).
Proof. intro. unfold bi_terminal. rewrite nth_error_map_seq by lia. reflexivity. Qed.

Lemma bi_terminal_length z n (S K u d : T) : List.length (bi_terminal z n S K u d) = n + 1.
Proof. unfold bi_terminal. now rewrite map_length, seq_length. Qed.

(** [f] may be replaced by a function that agrees on reachable nodes i <= j < n *)
Lemma bnode_ext n term f g :
  (forall j i vu vd, i <= j -> f j i vu vd = g j i vu vd) ->
  forall m i, m <= n -> i <= n - m -> bnode n term f m i = bnode n term g m i.
Proof.
  intro H. induction m; intros i Hm Hi; cbn [bnode]; auto.
  rewrite (IHm (i + 1)), (IHm i) by lia. apply H. lia.
Qed.

Definition amer_f (z : Z) (S K u d p Df : T) (j i : nat) (vu vd : T) : T :=
  (pymax (ofZ z * (S * u ^ i * d ^ (Z.abs_nat (Z.of_nat i - Z.of_nat j)) - K))
         ((p * vu + (ofZ 1 - p) * vd) * Df))%num.

Lemma amer_f_bnode n term z S K u d p Df m i :
  m <= n -> i <= n - m ->
  bnode n term (amer_f z S K u d p Df) m i =
  bnode n term (fun j i vu vd => pymax (bi_ex z S K u d j i) ((p * vu + (ofZ 1 - p) * vd) * Df)%num) m i.
Proof.
  intros. apply bnode_ext; auto. intros j k vu vd Hk. unfold amer_f, bi_ex.
  replace (Z.abs_nat (Z.of_nat k - Z.of_nat j)) with (j - k) by lia. reflexivity.
Qed.

Lemma bi_price_value k (o : TreeOption T) z amer :
  to_n o <> 0 -> to_type o = the_type amer ->
  bi_calc_price k o z false = Ok (Price (bi_value k o z amer (to_n o) 0)).
Proof.
  intros Hn Ht. unfold bi_calc_price.
  apply Nat.eqb_neq in Hn. rewrite Hn. cbv zeta.
  pose proof (bi_terminal_length z (to_n o) (to_S o) (to_K o) (bi_u k o) (bi_d k o)) as L.
  pose proof (fun i => bi_terminal_nth z (to_n o) (to_S o) (to_K o) (bi_u k o) (bi_d k o) i) as V.
  rewrite Ht. destruct amer; cbn [the_type String.eqb Ascii.eqb Bool.eqb].
  - change (bi_amer ?ov ?n ?Df ?p ?K ?d ?S ?u ?z ?tr) with (bi_sweep (amer_f z S K u d p Df) ov n tr).
    destruct (sweep_price (amer_f z (to_S o) (to_K o) (bi_u k o) (bi_d k o) (bi_p k o) (bi_Df o))
                _ _ _ L V) as (ov' & E & G). rewrite E. cbn [bind].
    apply get_Ok in G. rewrite G. cbn [bind]. rewrite amer_f_bnode by lia. reflexivity.
  - change (bi_euro ?ov ?n ?Df ?p ?tr)
      with (bi_sweep (fun _ _ vu vd => ((p * vu + (ofZ 1 - p) * vd) * Df)%num) ov n tr).
    destruct (sweep_price (fun _ _ vu vd => ((bi_p k o * vu + (ofZ 1 - bi_p k o) * vd) * bi_Df o)%num)
                _ _ _ L V) as (ov' & E & G). rewrite E. cbn [bind].
    apply get_Ok in G. rewrite G. reflexivity.
Qed.

Lemma bi_tree_value k (o : TreeOption T) z amer :
  to_n o <> 0 -> to_type o = the_type amer ->
  exists m, bi_calc_price k o z true = Ok (Matrix m) /\ is_matrix m (to_n o + 1) (to_n o + 1) /\
    (forall i c, i <= c <= to_n o -> mget m i c = Ok (bi_value k o z amer (to_n o - c) (c - i))) /\
    (forall i c, c < i <= to_n o -> mget m i c = Ok (ofZ 0)).
Proof.
  intros Hn Ht. unfold bi_calc_price.
  apply Nat.eqb_neq in Hn. rewrite Hn. cbv zeta.
  pose proof (bi_terminal_length z (to_n o) (to_S o) (to_K o) (bi_u k o) (bi_d k o)) as L.
  pose proof (fun i => bi_terminal_nth z (to_n o) (to_S o) (to_K o) (bi_u k o) (bi_d k o) i) as V.
  rewrite Ht. destruct amer; cbn [the_type String.eqb Ascii.eqb Bool.eqb].
  - change (bi_amer ?ov ?n ?Df ?p ?K ?d ?S ?u ?z ?tr) with (bi_sweep (amer_f z S K u d p Df) ov n tr).
    destruct (sweep_tree (amer_f z (to_S o) (to_K o) (bi_u k o) (bi_d k o) (bi_p k o) (bi_Df o))
                _ _ _ L V) as (m & E & Sh & G & G0). rewrite E. cbn [bind].
    exists m. split; [reflexivity|]. split; [auto|]. split; [|auto].
    intros i c H. rewrite G by auto. f_equal. rewrite amer_f_bnode by lia. reflexivity.
  - change (bi_euro ?ov ?n ?Df ?p ?tr)
      with (bi_sweep (fun _ _ vu vd => ((p * vu + (ofZ 1 - p) * vd) * Df)%num) ov n tr).
    destruct (sweep_tree (fun _ _ vu vd => ((bi_p k o * vu + (ofZ 1 - bi_p k o) * vd) * bi_Df o)%num)
                _ _ _ L V) as (m & E & Sh & G & G0). rewrite E. cbn [bind].
    exists m. split; [reflexivity|]. split; [auto|]. split; [|auto]. exact G.
Qed.

Lemma bi_unknown_type k (o : TreeOption T) z tree :
  to_n o <> 0 -> to_type o <> "european"%string -> to_type o <> "american"%string ->
  bi_calc_price k o z tree = Err UnboundLocalError.
Proof.
  intros Hn H1 H2. unfold bi_calc_price. apply Nat.eqb_neq in Hn. rewrite Hn.
  apply String.eqb_neq in H1, H2. now rewrite H1, H2.
Qed.

(* ------------------------------------------------------------------ trinomial sweep *)
(** value with [m] steps left at node i (of 0 .. 2j at time j) *)
Fixpoint tnode (n : nat) (term : nat -> T) (f : nat -> nat -> T -> T -> T -> T) (m i : nat) : T :=
  match m with
  | O => term i
  | S m' => f (n - m) i (tnode n term f m' (i + 2)) (tnode n term f m' (i + 1)) (tnode n term f m' i)
  end.

Definition tri_body (f : nat -> nat -> T -> T -> T -> T) (j i : nat) (st : list T * list T)
  : res (list T * list T) :=
  let '(ov, tr) := st in
  ov <- (v <- (v2 <- get ov (i + 2) ;; v1 <- get ov (i + 1) ;; v0 <- get ov i ;;
               Ok (f j i v2 v1 v0)) ;; upd ov i v) ;;
  v <- get ov i ;;
  Ok (ov, tr ++ [v]).

Definition trow n term f (c : nat) : list T := map (tnode n term f (n - c)) (seq 0 (c * 2 + 1)).

Lemma trow_length n term f c : List.length (trow n term f c) = c * 2 + 1.
Proof. unfold trow. now rewrite map_length, seq_length. Qed.

Lemma tstack_length n term f k : List.length (stack (trow n term f) k) = k ^ 2.
Proof.
  induction k; auto. cbn [stack]. rewrite app_length, IHk, trow_length. cbn. lia.
Qed.

Lemma tri_loop f term n (ov : list T) :
  List.length ov = 2 * n + 1 -> (forall i, i <= 2 * n -> nth_error ov i = Some (term i)) ->
  exists ov',
    for_ (rev (seq 0 n)) (fun j st => for_ (seq 0 (j * 2 + 1)) (tri_body f j) st) (ov, ov)
    = Ok (ov', stack (trow n term f) (n + 1))
    /\ nth_error ov' 0 = Some (tnode n term f n 0).
Proof.
  intros L V.
  destruct (for_rev_inv
    (fun j (st : list T * list T) => let '(ov, tr) := st in
       List.length ov = 2 * n + 1 /\
       (forall i, i <= 2 * j -> nth_error ov i = Some (tnode n term f (n - j) i)) /\
       tr ++ stack (trow n term f) j = stack (trow n term f) (n + 1))
    (fun j st => for_ (seq 0 (j * 2 + 1)) (tri_body f j) st)
    n (ov, ov)) as ([ov' tr'] & E & (L' & V' & T')).
  - split; [auto|]. split.
    + intros. rewrite Nat.sub_diag. cbn. auto.
    + replace (n + 1) with (S n) by lia. cbn [stack]. f_equal.
      unfold trow. rewrite Nat.sub_diag.
      apply list_ext; [rewrite map_length, seq_length; lia|].
      intros i Hi. rewrite V by lia. rewrite nth_error_map_seq by lia. auto.
  - intros j [ov1 tr1] Hj (L1 & V1 & T1).
    destruct (for_seq_inv
      (fun i (st : list T * list T) => let '(ov, tr) := st in
         List.length ov = 2 * n + 1 /\
         (forall k, k < i -> nth_error ov k = Some (tnode n term f (n - j) k)) /\
         (forall k, i <= k <= 2 * S j -> nth_error ov k = Some (tnode n term f (n - S j) k)) /\
         tr = tr1 ++ map (tnode n term f (n - j)) (seq 0 i))
      (tri_body f j) 0 (j * 2 + 1) (ov1, tr1))
      as ([ov2 tr2] & E2 & (L2 & V2 & _ & T2)).
    + split; [auto|]. split; [intros; lia|]. split; [intros; apply V1; lia|].
      cbn. now rewrite app_nil_r.
    + intros i [ov2 tr2] Hi (L2 & V2 & W2 & T2). unfold tri_body.
      assert (G2 : get ov2 (i + 2) = Ok (tnode n term f (n - S j) (i + 2)))
        by (apply get_Ok, W2; lia).
      assert (G1 : get ov2 (i + 1) = Ok (tnode n term f (n - S j) (i + 1)))
        by (apply get_Ok, W2; lia).
      assert (G0 : get ov2 i = Ok (tnode n term f (n - S j) i)) by (apply get_Ok, W2; lia).
      rewrite G2, G1, G0. cbn [bind].
      assert (EN : f j i (tnode n term f (n - S j) (i + 2)) (tnode n term f (n - S j) (i + 1))
                       (tnode n term f (n - S j) i)
                   = tnode n term f (n - j) i).
      { replace (n - j) with (S (n - S j)) by lia. cbn [tnode]. f_equal. lia. }
      rewrite EN. rewrite upd_Ok by lia. cbn [bind].
      assert (G : get (upd_l ov2 i (tnode n term f (n - j) i)) i = Ok (tnode n term f (n - j) i)).
      { apply get_Ok, nth_error_upd_eq. lia. }
      rewrite G. cbn [bind]. eexists; split; [reflexivity|]. cbv beta iota.
      split; [now rewrite upd_l_length|]. split; [|split].
      * intros k Hk. destruct (Nat.eq_dec k i) as [->|].
        -- apply nth_error_upd_eq. lia.
        -- rewrite nth_error_upd_neq by lia. apply V2. lia.
      * intros k Hk. rewrite nth_error_upd_neq by lia. apply W2. lia.
      * rewrite T2. rewrite <- app_assoc. f_equal. rewrite seq_S, map_app. reflexivity.
    + exists (ov2, tr2). rewrite E2. split; [reflexivity|]. cbv beta iota.
      rewrite Nat.add_0_l in *.
      split; [auto|]. split; [intros; apply V2; lia|].
      rewrite <- T1, T2. cbn [stack]. unfold trow. now rewrite <- !app_assoc.
  - exists ov'. rewrite E. cbn [stack] in T'. rewrite app_nil_r in T'. rewrite T'.
    split; auto. rewrite V' by lia. now rewrite Nat.sub_0_r.
Qed.

Lemma tri_terminal_ok z n (S K u d : T) :
  exists ov, tri_terminal z n S K u d = Ok ov /\ List.length ov = 2 * n + 1 /\
    forall i, i <= 2 * n -> nth_error ov i = Some (maxn (ofZ 0) (tri_exercise z S K u d i n)).
Proof.
  unfold tri_terminal.
  destruct (for_seq_inv
    (fun i ov => List.length ov = 2 * n + 1 /\
       forall k, k < i -> nth_error ov k = Some (maxn (ofZ 0) (tri_exercise z S K u d k n)))
    (fun i ov => upd ov i (maxn (ofZ 0) (tri_exercise z S K u d i n))) 0 (2 * n + 1)
    (repeat (ofZ 0) (2 * n + 1))) as (ov & E & L & V).
  - split; [now rewrite repeat_length|lia].
  - intros i ov Hi (L & V). rewrite upd_Ok by lia. eexists; split; [reflexivity|].
    split; [now rewrite upd_l_length|]. intros k Hk. destruct (Nat.eq_dec k i) as [->|].
    + apply nth_error_upd_eq; lia.
    + rewrite nth_error_upd_neq by lia. apply V; lia.
  - exists ov. split; auto. split; auto. intros. apply V. lia.
Qed.

(** value with [m] steps left at node i (0 .. 2(n-m)); node i at time j has i - j net up moves *)
Definition tri_value (o : TreeOption T) (z : Z) (amer : bool) (m i : nat) : T :=
  tnode (to_n o)
    (fun i => maxn (ofZ 0) (tri_exercise z (to_S o) (to_K o) (tri_u o) (tri_d o) i (to_n o)))
    (fun j i v2 v1 v0 =>
       let cont := ((tri_pu o * v2 + tri_pm o * v1 + tri_pd o * v0) * tri_Df o)%num in
       if amer then maxn (tri_exercise z (to_S o) (to_K o) (tri_u o) (tri_d o) i j) cont else cont)
    m i.

Lemma mupd_ok {A} (m : list (list A)) r c i j v :
  is_matrix m r c -> i < r -> j < c ->
  exists m', mupd m i j v = Ok m' /\ is_matrix m' r c /\
    mget m' i j = Ok v /\
    forall i' j', (i' <> i \/ j' <> j) -> mget m' i' j' = mget m i' j'.
Proof.
  intros (L & R) Hi Hj. unfold mupd, get at 1.
  destruct (nth_error m i) as [row|] eqn:E; [|apply nth_error_None in E; lia]. cbn [of_opt bind].
  pose proof (R _ _ E) as Lr. rewrite upd_Ok by lia. cbn [bind]. rewrite upd_Ok by lia.
  eexists; split; [reflexivity|]. split; [split|split].
  - now rewrite upd_l_length.
  - intros k rk Hk. destruct (Nat.eq_dec k i) as [->|].
    + rewrite nth_error_upd_eq in Hk by lia. injection Hk as <-. now rewrite upd_l_length.
    + rewrite nth_error_upd_neq in Hk by lia. eapply R; eauto.
  - unfold mget, get. rewrite nth_error_upd_eq by lia. cbn [of_opt bind].
    rewrite nth_error_upd_eq by lia. reflexivity.
  - intros i' j' H. unfold mget, get. destruct (Nat.eq_dec i' i) as [->|].
    + rewrite nth_error_upd_eq by lia. rewrite E. cbn [of_opt bind].
      rewrite nth_error_upd_neq by lia. reflexivity.
    + rewrite nth_error_upd_neq by lia. reflexivity.
Qed.

Lemma zeros_matrix (r c : nat) : is_matrix (repeat (repeat (ofZ (T:=T) 0) c) r) r c.
Proof.
  split; [now rewrite repeat_length|]. intros i row H. apply nth_error_In, repeat_spec in H.
  subst. now rewrite repeat_length.
Qed.

Lemma zeros_get (r c i j : nat) : i < r -> j < c ->
  mget (repeat (repeat (ofZ (T:=T) 0) c) r) i j = Ok (ofZ 0).
Proof.
  intros. unfold mget, get. rewrite nth_error_repeat' by auto. cbn [of_opt bind].
  now rewrite nth_error_repeat' by auto.
Qed.

(** layout of [tri_reshape]: column c holds, in rows n-c .. n+c, the values of time c from node 2c
    down to node 0; everything else is 0 *)
Lemma tri_reshape_ok n term f :
  exists m, tri_reshape (stack (trow n term f) (n + 1)) (n + 1) = Ok m /\
    is_matrix m (2 * n + 1) (n + 1) /\
    (forall i c, c <= n -> n - c <= i <= n + c ->
       mget m i c = Ok (tnode n term f (n - c) (n + c - i))) /\
    (forall i c, c <= n -> i < n - c \/ n + c < i <= 2 * n -> mget m i c = Ok (ofZ 0)).
Proof.
  set (tr := stack (trow n term f) (n + 1)). unfold tri_reshape.
  assert (ROW : forall c k, c <= n -> k < 2 * c + 1 ->
     nth_error (rev tr) (c ^ 2 + k) = Some (tnode n term f (n - c) (2 * c - k))).
  { intros c k Hc Hk. rewrite <- (tstack_length n term f c). unfold tr.
    rewrite stack_rev by (rewrite ?trow_length; lia).
    rewrite nth_error_rev by (rewrite trow_length; lia). rewrite trow_length.
    unfold trow. rewrite nth_error_map_seq by lia. f_equal. f_equal. lia. }
  assert (LEN : List.length tr = (n + 1) ^ 2) by apply tstack_length.
  match goal with |- context[for_ (seq 0 (n+1)) ?b ?s] =>
    destruct (for_seq_inv (fun c m =>
      is_matrix m (2 * n + 1) (n + 1) /\
      forall i k, i <= 2 * n -> k <= n ->
        mget m i k = Ok (if (k <? c) && (n - k <=? i) && (i <=? n + k)
                         then tnode n term f (n - k) (n + k - i) else ofZ 0)) b 0 (n + 1) s)
      as (m & E & M & G) end.
  - split; [|].
    + replace (2 * n + 1) with (2 * (n + 1) - 1) by lia. apply zeros_matrix.
    + intros. cbn [Nat.ltb Nat.leb andb]. apply zeros_get; lia.
  - intros c m Hc (M & G).
    destruct (Nat.ltb_spec 0 c) as [Hp|Hz].
    + set (src := firstn (2 * c + 1) (skipn (c ^ 2) (rev tr))).
      assert (SRC : forall k, k < 2 * c + 1 -> nth_error src k = Some (tnode n term f (n - c) (2 * c - k))).
      { intros k Hk. unfold src. rewrite nth_error_firstn by auto.
        rewrite nth_error_skipn. apply ROW; lia. }
      assert (LS : List.length src = 2 * c + 1).
      { unfold src. rewrite firstn_length, skipn_length, rev_length, LEN.
        assert ((c + 1) ^ 2 <= (n + 1) ^ 2) by (apply Nat.pow_le_mono_l; lia).
        cbn in *. lia. }
      cbv zeta. apply Nat.eqb_eq in LS. rewrite LS.
      match goal with |- context[for_ (seq 0 (2 * c + 1)) ?b m] =>
        destruct (for_seq_inv (fun q m' =>
          is_matrix m' (2 * n + 1) (n + 1) /\
          forall i k, i <= 2 * n -> k <= n ->
            mget m' i k = if (k =? c) && (n - c <=? i) && (i <? n - c + q)
                          then Ok (tnode n term f (n - c) (n + c - i)) else mget m i k)
          b 0 (2 * c + 1) m) as (m' & E & M' & G') end.
      * split; auto. intros. rewrite Nat.add_0_r.
        destruct (Nat.leb_spec (n - c) i), (Nat.ltb_spec i (n - c)); try lia;
          now rewrite ?andb_false_r.
      * intros q m' Hq (M' & G'). assert (Eg : get src q = Ok (tnode n term f (n - c) (2 * c - q)))
          by (apply get_Ok, SRC; lia). rewrite Eg. cbn [bind].
        destruct (mupd_ok m' _ _ (n + 1 - c - 1 + q) c (tnode n term f (n - c) (2 * c - q)) M')
          as (m2 & E2 & M2 & G2 & H2); [lia|lia|].
        exists m2. split; [exact E2|]. split; [exact M2|].
        intros i k Hi Hk.
        destruct (Nat.eq_dec k c) as [->|Nk]; [destruct (Nat.eq_dec i (n - c + q)) as [->|Ni]|].
        -- replace (n + 1 - c - 1 + q) with (n - c + q) in G2 by lia. rewrite G2.
           rewrite Nat.eqb_refl. destruct (Nat.leb_spec (n - c) (n - c + q)); [|lia].
           destruct (Nat.ltb_spec (n - c + q) (n - c + S q)); [|lia]. cbn [andb].
           do 2 f_equal. lia.
        -- rewrite H2 by lia. rewrite G' by lia. rewrite Nat.eqb_refl. cbn [andb].
           destruct (Nat.leb_spec (n - c) i); cbn [andb]; auto.
           destruct (Nat.ltb_spec i (n - c + q)), (Nat.ltb_spec i (n - c + S q)); auto; lia.
        -- rewrite H2 by lia. rewrite G' by lia.
           destruct (Nat.eqb_spec k c); [lia|]. reflexivity.
      * exists m'. split; [exact E|]. split; [exact M'|].
        intros i k Hi Hk. rewrite G' by auto. rewrite (G i k) by auto.
        destruct (Nat.eqb_spec k c) as [->|]; cbn [andb].
        -- destruct (Nat.ltb_spec c c); [lia|]. cbn [andb].
           destruct (Nat.ltb_spec c (S c)); [|lia]. cbn [andb].
           destruct (Nat.leb_spec (n - c) i); cbn [andb]; auto.
           destruct (Nat.ltb_spec i (n - c + (0 + (2 * c + 1)))), (Nat.leb_spec i (n + c)); auto; lia.
        -- destruct (Nat.ltb_spec k c), (Nat.ltb_spec k (S c)); auto; lia.
    + assert (c = 0) by lia. subst c.
      assert (R0 : get (rev tr) 0 = Ok (tnode n term f (n - 0) 0)).
      { apply get_Ok. apply (ROW 0 0); lia. }
      rewrite R0. cbn [bind].
      destruct (mupd_ok m _ _ (n + 1 - 1) 0 (tnode n term f (n - 0) 0) M)
        as (m2 & E2 & M2 & G2 & H2); [lia|lia|].
      exists m2. split; [exact E2|]. split; [exact M2|].
      intros i k Hi Hk.
      destruct (Nat.eq_dec k 0) as [->|Nk]; [destruct (Nat.eq_dec i n) as [->|Ni]|].
      * replace (n + 1 - 1) with n in * by lia. rewrite G2.
        cbn [Nat.ltb Nat.leb]. destruct (Nat.leb_spec (n - 0) n); [|lia].
        destruct (Nat.leb_spec n (n + 0)); [|lia]. cbn [andb]. do 2 f_equal. lia.
      * rewrite H2 by lia. rewrite G by lia. cbn [Nat.ltb Nat.leb andb].
        destruct (Nat.leb_spec (n - 0) i), (Nat.leb_spec i (n + 0)); cbn [andb]; auto; lia.
      * rewrite H2 by lia. rewrite G by lia.
        destruct (Nat.ltb_spec k 0), (Nat.ltb_spec k 1); cbn [andb]; auto; lia.
  - exists m. split; [exact E|]. split; [exact M|]. split.
    + intros i c Hc Hi. rewrite G by lia.
      destruct (Nat.ltb_spec c (0 + (n + 1))); [|lia].
      destruct (Nat.leb_spec (n - c) i); [|lia]. destruct (Nat.leb_spec i (n + c)); [|lia].
      reflexivity.
    + intros i c Hc Hi. rewrite G by lia.
      destruct (Nat.leb_spec (n - c) i), (Nat.leb_spec i (n + c)); rewrite ?andb_false_r; auto; lia.
Qed.

Lemma for_ext {B St} (xs : list B) (f g : B -> St -> res St) st :
  (forall x st, f x st = g x st) -> for_ xs f st = for_ xs g st.
Proof.
  intro H. revert st; induction xs; intros; cbn; auto. rewrite H.
  destruct (g a st); cbn; auto.
Qed.

Lemma tri_core (o : TreeOption T) z amer tree :
  to_n o <> 0 -> to_type o = the_type amer ->
  exists ov',
    tri_calc_price o z tree =
      (if tree then m <- tri_reshape (stack (trow (to_n o)
          (fun i => maxn (ofZ 0) (tri_exercise z (to_S o) (to_K o) (tri_u o) (tri_d o) i (to_n o)))
          (fun j i v2 v1 v0 =>
             let cont := ((tri_pu o * v2 + tri_pm o * v1 + tri_pd o * v0) * tri_Df o)%num in
             if amer then maxn (tri_exercise z (to_S o) (to_K o) (tri_u o) (tri_d o) i j) cont else cont))
           (to_n o + 1)) (to_n o + 1) ;; Ok (Matrix m)
       else v <- get ov' 0 ;; Ok (Price v)) /\
    nth_error ov' 0 = Some (tri_value o z amer (to_n o) 0).
Proof.
  intros Hn Ht. unfold tri_calc_price. apply Nat.eqb_neq in Hn. rewrite Hn. cbv zeta.
  destruct (tri_terminal_ok z (to_n o) (to_S o) (to_K o) (tri_u o) (tri_d o)) as (ov & E & L & V).
  rewrite E. cbn [bind].
  destruct (tri_loop (fun j i v2 v1 v0 =>
       let cont := ((tri_pu o * v2 + tri_pm o * v1 + tri_pd o * v0) * tri_Df o)%num in
       if amer then maxn (tri_exercise z (to_S o) (to_K o) (tri_u o) (tri_d o) i j) cont else cont)
     _ _ _ L V) as (ov' & E' & G).
  exists ov'. split; [|exact G].
  match goal with |- bind (for_ ?xs ?b ?s) _ = _ =>
    replace (for_ xs b s) with (Ok (ov', stack (trow (to_n o)
          (fun i => maxn (ofZ 0) (tri_exercise z (to_S o) (to_K o) (tri_u o) (tri_d o) i (to_n o)))
          (fun j i v2 v1 v0 =>
             let cont := ((tri_pu o * v2 + tri_pm o * v1 + tri_pd o * v0) * tri_Df o)%num in
             if amer then maxn (tri_exercise z (to_S o) (to_K o) (tri_u o) (tri_d o) i j) cont else cont))
           (to_n o + 1))) end.
  - cbn [bind]. reflexivity.
  - rewrite <- E'. apply for_ext. intros j st. apply for_ext. intros i [ov1 tr1].
    unfold tri_body. rewrite Ht. destruct amer; cbn [the_type String.eqb Ascii.eqb Bool.eqb];
      unfold tri_amer, tri_euro;
      destruct (get ov1 (i + 2)); cbn [bind]; auto;
      destruct (get ov1 (i + 1)); cbn [bind]; auto;
      destruct (get ov1 i); cbn [bind]; auto.
Qed.

Lemma tri_price_value (o : TreeOption T) z amer :
  to_n o <> 0 -> to_type o = the_type amer ->
  tri_calc_price o z false = Ok (Price (tri_value o z amer (to_n o) 0)).
Proof.
  intros Hn Ht. destruct (tri_core o z amer false Hn Ht) as (ov & E & G). rewrite E.
  apply get_Ok in G. rewrite G. reflexivity.
Qed.

Lemma tri_tree_value (o : TreeOption T) z amer :
  to_n o <> 0 -> to_type o = the_type amer ->
  exists m, tri_calc_price o z true = Ok (Matrix m) /\ is_matrix m (2 * to_n o + 1) (to_n o + 1) /\
    (forall i c, c <= to_n o -> to_n o - c <= i <= to_n o + c ->
       mget m i c = Ok (tri_value o z amer (to_n o - c) (to_n o + c - i))) /\
    (forall i c, c <= to_n o -> i < to_n o - c \/ to_n o + c < i <= 2 * to_n o ->
       mget m i c = Ok (ofZ 0)).
Proof.
  intros Hn Ht. destruct (tri_core o z amer true Hn Ht) as (ov & E & G). rewrite E.
  match goal with |- context[stack (trow ?n ?te ?f) (?n + 1)] =>
    destruct (tri_reshape_ok n te f) as (m & Em & M & G1 & G2) end.
  rewrite Em. cbn [bind]. exists m. split; [reflexivity|]. split; [exact M|]. split; auto.
Qed.

(** With an unknown type the loops only copy: the price is the terminal payoff of node 0. *)
Lemma tri_unknown_type (o : TreeOption T) z :
  to_n o <> 0 -> to_type o <> "european"%string -> to_type o <> "american"%string ->
  tri_calc_price o z false =
  Ok (Price (maxn (ofZ 0) (ofZ z * (to_S o * tri_u o ^ 0 * tri_d o ^ to_n o - to_K o))%num)).
Proof.
  intros Hn H1 H2. unfold tri_calc_price. apply Nat.eqb_neq in Hn. rewrite Hn. cbv zeta.
  apply String.eqb_neq in H1, H2. rewrite H1, H2.
  destruct (tri_terminal_ok z (to_n o) (to_S o) (to_K o) (tri_u o) (tri_d o)) as (ov & E & L & V).
  rewrite E. cbn [bind].
  match goal with |- context[for_ ?xs ?b ?s] =>
    destruct (for_rev_inv (fun j (st : list T * list T) => fst st = ov) b (to_n o) s)
      as ([ov' tr'] & E' & G) end.
  - reflexivity.
  - intros j [ov1 tr1] Hj Hf. cbn in Hf. subst ov1.
    match goal with |- context[for_ ?xs ?b ?s] =>
      destruct (for_seq_inv (fun j (st : list T * list T) => fst st = ov) b 0 (j * 2 + 1) s)
        as (st' & E' & G) end.
    + reflexivity.
    + intros i [ov2 tr2] Hi Hf. cbn in Hf. subst ov2. cbn [bind].
      assert (Gi : get ov i = Ok (maxn (ofZ 0) (tri_exercise z (to_S o) (to_K o) (tri_u o) (tri_d o) i (to_n o))))
        by (apply get_Ok, V; lia).
      rewrite Gi. cbn [bind]. eexists; split; [reflexivity|]. reflexivity.
    + exists st'. auto.
  - rewrite E'. cbn [bind]. cbn in G. subst ov'.
    assert (G0 : get ov 0 = Ok (maxn (ofZ 0) (tri_exercise z (to_S o) (to_K o) (tri_u o) (tri_d o) 0 (to_n o))))
      by (apply get_Ok, V; lia).
    rewrite G0. cbn [bind]. unfold tri_exercise, posdiff.
    replace (Z.to_nat (Z.max (Z.of_nat 0 - Z.of_nat (to_n o)) 0)) with 0 by lia.
    replace (Z.to_nat (Z.max (Z.of_nat (to_n o) - Z.of_nat 0) 0)) with (to_n o) by lia.
    reflexivity.
Qed.
End Bi.
