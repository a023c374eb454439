(** The in-place double sweep of the 3D binomial tree computes the intended recursion, in any arithmetic. *)
From Coq Require Import List Arith ZArith QArith String Bool Lia.
From Verif Require Import Num Py Arr MTrees MSpread PTrees.
Import ListNotations.
Open Scope py_scope.
Open Scope nat_scope.

Section S3.
Context {T : Type} {N : Num T}.
Variables (o : Spread3D T) (z : Z) (n : nat) (otype : string).
Variable g : nat -> nat -> nat -> T.
Hypothesis Hg : forall m j i, s3_node_payoff o z m j i = Ok (g m j i).

(** value with [rem] steps left at node (j, i) *)
Fixpoint V3 (rem j i : nat) : T :=
  match rem with
  | O => g n j i
  | S r =>
      let v := (lit (25#100) * (V3 r j i + V3 r (j + 1)%nat i + V3 r j (i + 1)%nat + V3 r (j + 1)%nat (i + 1)%nat)
                * expn (- s3_r o * s3_dt o))%num in
      if String.eqb otype "american" then maxn v (g (n - S r) j i) else v
  end.
Definition Val (c j i : nat) : T := V3 (n - c) j i.

Definition MI (L : nat -> nat -> nat) (M : list (list T)) : Prop :=
  is_matrix M (n + 2) (n + 2) /\
  (forall j i, j <= n -> i <= n -> mget M j i = Ok (Val (L j i) j i)) /\
  (forall j i, j <= n + 1 -> i <= n + 1 -> j = n + 1 \/ i = n + 1 -> mget M j i = Ok (ofZ 0)).

Lemma MI_ext L L' M : (forall j i, j <= n -> i <= n -> L j i = L' j i) -> MI L M -> MI L' M.
Proof.
  intros H (A & B & C). split; [|split]; auto. intros j i Hj Hi. rewrite <- H by auto. auto.
Qed.

Lemma MI_upd L M j i c : MI L M -> j <= n -> i <= n ->
  exists M', mupd M j i (Val c j i) = Ok M' /\
    MI (fun j' i' => if (j' =? j) && (i' =? i) then c else L j' i') M'.
Proof.
  intros (A & B & C) Hj Hi.
  destruct (mupd_ok M (n + 2) (n + 2) j i (Val c j i) A ltac:(lia) ltac:(lia)) as (M' & E & A' & G1 & G2).
  exists M'. split; auto. split; [|split]; auto.
  - intros j' i' Hj' Hi'. destruct (Nat.eqb_spec j' j) as [->|Nj]; simpl.
    + destruct (Nat.eqb_spec i' i) as [->|Ni]; auto. rewrite G2 by auto. auto.
    + rewrite G2 by auto. auto.
  - intros j' i' Hj' Hi' Hor. rewrite G2 by lia. auto.
Qed.

(** value at level c from level c+1 *)
Lemma Val_step c j i : c < n ->
  Val c j i =
  let v := (lit (25#100) * (Val (c + 1) j i + Val (c + 1) (j + 1)%nat i + Val (c + 1) j (i + 1)%nat
                            + Val (c + 1) (j + 1)%nat (i + 1)%nat)
                * expn (- s3_r o * s3_dt o))%num in
  if String.eqb otype "american" then maxn v (g c j i) else v.
Proof.
  intro H. unfold Val. replace (n - c) with (S (n - (c + 1))) by lia. cbn [V3].
  now replace (n - S (n - (c + 1))) with c by lia.
Qed.

Definition lev (m j i j' i' : nat) : nat :=
  if (j' <? j) || ((j' =? j) && (i' <? i)) then Nat.max (Nat.max j' i') m
  else Nat.max (Nat.max j' i') (m + 1).

Lemma s3_step_ok m j i M : m < n -> j <= m -> i <= m -> MI (lev m j i) M ->
  exists M', s3_step o z otype m j i M = Ok M' /\ MI (lev m j (S i)) M'.
Proof.
  intros Hm Hj Hi HM. pose proof HM as (A & B & _). unfold s3_step.
  assert (L1 : lev m j i j i = m + 1).
  { unfold lev. destruct (Nat.ltb_spec j j); [lia|]. destruct (Nat.eqb_spec j j); [|lia].
    destruct (Nat.ltb_spec i i); [lia|]. simpl. lia. }
  assert (L2 : lev m j i (j + 1) i = m + 1).
  { unfold lev. destruct (Nat.ltb_spec (j + 1) j); [lia|]. destruct (Nat.eqb_spec (j + 1) j); [lia|].
    simpl. lia. }
  assert (L3 : lev m j i j (i + 1) = m + 1).
  { unfold lev. destruct (Nat.ltb_spec j j); [lia|]. destruct (Nat.eqb_spec j j); [|lia].
    destruct (Nat.ltb_spec (i + 1) i); [lia|]. simpl. lia. }
  assert (L4 : lev m j i (j + 1) (i + 1) = m + 1).
  { unfold lev. destruct (Nat.ltb_spec (j + 1) j); [lia|]. destruct (Nat.eqb_spec (j + 1) j); [lia|].
    simpl. lia. }
  rewrite !B by lia. rewrite L1, L2, L3, L4. cbn [bind].
  set (v := (lit (25#100) * (Val (m + 1) j i + Val (m + 1) (j + 1)%nat i + Val (m + 1) j (i + 1)%nat
                            + Val (m + 1) (j + 1)%nat (i + 1)%nat) * expn (- s3_r o * s3_dt o))%num).
  assert (EV : Val m j i = if String.eqb otype "american" then maxn v (g m j i) else v).
  { rewrite Val_step by lia. reflexivity. }
  assert (FIN : forall M', mget M' j i = mget M' j i ->
     MI (fun j' i' => if (j' =? j) && (i' =? i) then m else lev m j i j' i') M' -> MI (lev m j (S i)) M').
  { intros M' _. apply MI_ext. intros j' i' Hj' Hi'. unfold lev.
    destruct (Nat.eqb_spec j' j) as [->|Nj]; simpl.
    - destruct (Nat.ltb_spec j j); [lia|]. simpl.
      destruct (Nat.eqb_spec i' i) as [->|Ni].
      + destruct (Nat.ltb_spec i (S i)); [|lia]. lia.
      + destruct (Nat.ltb_spec i' i), (Nat.ltb_spec i' (S i)); try lia; auto.
    - rewrite !orb_false_r. reflexivity. }
  destruct (String.eqb otype "american") eqn:Et.
  - (* american: two writes *)
    destruct (mupd_ok M (n + 2) (n + 2) j i v A ltac:(lia) ltac:(lia)) as (M1 & E1 & A1 & G1 & G2).
    rewrite E1. cbn [bind]. rewrite G1. cbn [bind]. rewrite Hg. cbn [bind].
    destruct (mupd_ok M1 (n + 2) (n + 2) j i (maxn v (g m j i)) A1 ltac:(lia) ltac:(lia)) as (M2 & E2 & A2 & G3 & G4).
    exists M2. split; auto. apply FIN; auto.
    destruct HM as (_ & _ & C). split; [|split]; auto.
    + intros j' i' Hj' Hi'. destruct (Nat.eqb_spec j' j) as [->|Nj]; simpl.
      * destruct (Nat.eqb_spec i' i) as [->|Ni].
        -- rewrite G3, EV. reflexivity.
        -- rewrite G4, G2 by auto. auto.
      * rewrite G4, G2 by auto. auto.
    + intros j' i' Hj' Hi' Hor. rewrite G4, G2 by lia. auto.
  - destruct (MI_upd _ M j i m HM ltac:(lia) ltac:(lia)) as (M' & E & HM'). rewrite EV in E.
    rewrite E. cbn [bind]. exists M'. split; auto.
Qed.

Lemma s3_level_ok m M : m < n -> MI (fun j i => Nat.max (Nat.max j i) (m + 1)) M ->
  exists M', s3_sweep_level o z otype m M = Ok M' /\ MI (fun j i => Nat.max (Nat.max j i) m) M'.
Proof.
  intros Hm HM. unfold s3_sweep_level.
  destruct (for_seq_inv (fun j M => MI (lev m j 0) M) (fun j ov => s3_sweep_row o z otype m j ov) 0 (m + 1) M)
    as (M' & E & HM').
  - eapply MI_ext; [|exact HM]. intros j i Hj Hi. unfold lev. destruct (Nat.ltb_spec j 0); [lia|]. simpl.
    destruct (Nat.ltb_spec i 0); [lia|]. rewrite andb_false_r. reflexivity.
  - intros j M1 Hj H1. unfold s3_sweep_row.
    destruct (for_seq_inv (fun i M => MI (lev m j i) M) (fun i ov => s3_step o z otype m j i ov) 0 (m + 1) M1)
      as (M2 & E2 & H2); auto.
    + intros i M3 Hi H3. apply s3_step_ok; auto; lia.
    + exists M2. split; auto. eapply MI_ext; [|exact H2]. intros j' i' Hj' Hi'. unfold lev.
      destruct (Nat.ltb_spec j' j), (Nat.eqb_spec j' j), (Nat.ltb_spec i' (0 + (m + 1))), (Nat.ltb_spec j' (S j)),
        (Nat.eqb_spec j' (S j)), (Nat.ltb_spec i' 0); simpl; try lia.
  - exists M'. split; auto. eapply MI_ext; [|exact HM']. intros j i Hj Hi. unfold lev.
    destruct (Nat.ltb_spec j (0 + (m + 1))); simpl; auto.
    destruct (Nat.ltb_spec i 0); [lia|]. rewrite andb_false_r. lia.
Qed.

Lemma s3_fill_ok :
  exists M, s3_fill o z n (repeat (repeat (ofZ 0) (n + 2)) (n + 2)) = Ok M /\ MI (fun _ _ => n) M.
Proof.
  unfold s3_fill.
  set (F := fun (j i : nat) (M : list (list T)) =>
    is_matrix M (n + 2) (n + 2) /\
    (forall j' i', j' <= n -> i' <= n -> j' < j \/ (j' = j /\ i' < i) -> mget M j' i' = Ok (Val n j' i')) /\
    (forall j' i', j' <= n + 1 -> i' <= n + 1 -> j' = n + 1 \/ i' = n + 1 -> mget M j' i' = Ok (ofZ 0))).
  match goal with |- context [for_ (seq 0 (n + 1)) ?b ?m0] =>
    destruct (for_seq_inv (fun j M => F j 0 M) b 0 (n + 1) m0) as (M & E & HM) end.
  - split; [apply zeros_matrix|]. split; [intros; lia|]. intros. apply zeros_get; lia.
  - intros j M Hj HM.
    destruct (for_seq_inv (fun i M => F j i M) (fun i m => s3_fill_inner o z n j i m) 0 (n + 1) M) as (M' & E & HM'); auto.
    + intros i M1 Hi (A & B & C). unfold s3_fill_inner. rewrite Hg. cbn [bind].
      destruct (mupd_ok M1 (n + 2) (n + 2) j i (g n j i) A ltac:(lia) ltac:(lia)) as (M2 & E2 & A2 & G1 & G2).
      exists M2. split; auto. split; [|split]; auto.
      * intros j' i' Hj' Hi' Hor. destruct (Nat.eq_dec j' j) as [->|Nj].
        -- destruct (Nat.eq_dec i' i) as [->|Ni].
           ++ rewrite G1. unfold Val. now rewrite Nat.sub_diag.
           ++ rewrite G2 by auto. apply B; auto. lia.
        -- rewrite G2 by auto. apply B; auto. lia.
      * intros j' i' Hj' Hi' Hor. rewrite G2 by lia. auto.
    + exists M'. split; auto. destruct HM' as (A & B & C). split; [|split]; auto.
      intros j' i' Hj' Hi' Hor. apply B; auto. lia.
  - exists M. split; auto. destruct HM as (A & B & C). split; [|split]; auto.
    intros j i Hj Hi. apply B; auto. lia.
Qed.

Lemma s3_matrix_ok :
  exists M, s3_calc_price o z n otype true = Ok (Matrix M) /\
    s3_calc_price o z n otype false = Ok (Price (Val 0 0 0)) /\
    is_matrix M (n + 2) (n + 2) /\
    (forall j i, j <= n -> i <= n -> mget M j i = Ok (Val (Nat.max j i) j i)) /\
    (forall j i, j <= n + 1 -> i <= n + 1 -> j = n + 1 \/ i = n + 1 -> mget M j i = Ok (ofZ 0)).
Proof.
  destruct s3_fill_ok as (M0 & E0 & H0).
  destruct (for_rev_inv (fun m M => MI (fun j i => Nat.max (Nat.max j i) m) M)
    (fun m ov => s3_sweep_level o z otype m ov) n M0) as (M & E & HM).
  - eapply MI_ext; [|exact H0]. intros. lia.
  - intros m M Hm HM. apply s3_level_ok; auto. now replace (m + 1) with (S m) by lia.
  - assert (HM2 : MI (fun j i => Nat.max j i) M).
    { eapply MI_ext; [|exact HM]. intros; cbv beta; apply Nat.max_0_r. }
    destruct HM2 as (A & B & C). exists M. unfold s3_calc_price. rewrite E0. cbn [bind]. rewrite E. cbn [bind].
    split; auto. rewrite B by lia. cbn [rmap Nat.max]. split; auto.
Qed.
End S3.
