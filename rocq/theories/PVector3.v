(** SpreadApproxOption and the American approximations on arrays (C57). *)
From Coq Require Import Reals QArith ZArith List Bool Arith Lia Lra.
From Verif Require Import Num Py MBase MVanilla MSpread MVector SVector PCnd PVector PVector2.
Import ListNotations.
Open Scope num_scope.
Local Open Scope nat_scope.

Ltac k_open := unfold KirkOption; cbn zeta; cbn [k_S1 k_S2 k_K k_t k_r k_b1 k_b2 k_sigma1 k_sigma2 k_rho k_Q1 k_Q2 k_e1 k_e2 k_S k_sigma k_d1 k_d2].
Ltac rk_one H a := apply (fun X => conj X eq_refl : rk _ a (rank a)) in H; revert H; generalize (rank a); let r := fresh "r" in intros r H.
Section Kirk.
Context {E : Type} {NE : Num E}.
Variables (n : nat) (S1 S2 K t r b1 b2 s1 s2 rho Q1 Q2 : arr E).
Notation ins := [S1; S2; K; t; r; b1; b2; s1; s2; rho; Q1; Q2].
Let o := KirkOption S1 S2 K t r b1 b2 s1 s2 rho Q1 Q2.
(** the attributes in terms of the earlier ones *)
Definition kB (q2 x2 e2 k rr tt : arr E) : arr E := (q2 * x2 * e2 + k * expn (- rr * tt))%num.
Definition kD1 (S sg tt : arr E) : arr E := ((logn S + lit (5#10) * sg ^ 2 * tt) / (sg * sqrn tt))%num.

Lemma kirk_ranks : Forall (fits n) ins -> let m := fold_right Nat.max 0 (map rank ins) in
  (exists k, rk n (k_e1 o) k) /\ (exists k, rk n (k_e2 o) k) /\ (exists k, rk n (k_S o) k) /\ (exists k, rk n (k_sigma o) k) /\ (exists k, rk n (k_d1 o) k) /\ (exists k, rk n (k_d2 o) k) /\
  rk n (kirk_call o) m /\ rk n (kirk_put o) m.
Proof.
  cbn [map fold_right]. cbn zeta. intro Hp.
  do 12 (apply Forall_cons_iff in Hp; let H := fresh "H" in destruct Hp as [H Hp]). clear Hp.
  rk_one H S1. rk_one H0 S2. rk_one H1 K. rk_one H2 t. rk_one H3 r. rk_one H4 b1. rk_one H5 b2. rk_one H6 s1. rk_one H7 s2. rk_one H8 rho. rk_one H9 Q1. rk_one H10 Q2.
  assert (A1 : exists k, rk n (k_e1 o) k /\ k = fold_right Nat.max 0 [r5; r4; r3]) by (eexists; split; [unfold o; k_open; go_rk|cbn [fold_right]; eq_max]). destruct A1 as (k1 & A1 & E1).
  assert (A2 : exists k, rk n (k_e2 o) k /\ k = fold_right Nat.max 0 [r6; r4; r3]) by (eexists; split; [unfold o; k_open; go_rk|cbn [fold_right]; eq_max]). destruct A2 as (k2 & A2 & E2).
  assert (AS : exists k, rk n (k_S o) k /\ k = fold_right Nat.max 0 [r10; r0; k1; r11; r1; k2; r2; r4; r3]).
  { change (k_S o) with ((Q1 * S1 * k_e1 o) / kB Q2 S2 (k_e2 o) K r t)%num. unfold kB. revert A1 A2. generalize (k_e1 o) (k_e2 o). intros e1 e2 A1 A2. eexists. split; [go_rk|cbn [fold_right]; eq_max]. } destruct AS as (k3 & A3 & E3).
  assert (AF : exists k, rk n ((Q2 * S2 * k_e2 o) / kB Q2 S2 (k_e2 o) K r t)%num k /\ k = fold_right Nat.max 0 [r11; r1; k2; r2; r4; r3]).
  { unfold kB. revert A2. generalize (k_e2 o). intros e2 A2. eexists. split; [go_rk|cbn [fold_right]; eq_max]. } destruct AF as (k4 & A4 & E4).
  assert (AG : exists k, rk n (k_sigma o) k /\ k = fold_right Nat.max 0 [r7; r8; k4; r9]).
  { change (k_sigma o) with (sqrn (s1 ^ 2 + (s2 * ((Q2 * S2 * k_e2 o) / kB Q2 S2 (k_e2 o) K r t)) ^ 2 - ofZ 2 * rho * s1 * s2 * ((Q2 * S2 * k_e2 o) / kB Q2 S2 (k_e2 o) K r t)))%num.
    revert A4. generalize ((Q2 * S2 * k_e2 o) / kB Q2 S2 (k_e2 o) K r t)%num. intros F A4. cbn [ofZ ArrNum]. eexists. split; [go_rk|cbn [fold_right]; eq_max]. } destruct AG as (k5 & A5 & E5).
  assert (AD : exists k, rk n (k_d1 o) k /\ k = fold_right Nat.max 0 [k3; k5; r3]).
  { change (k_d1 o) with (kD1 (k_S o) (k_sigma o) t). unfold kD1. revert A3 A5. generalize (k_S o) (k_sigma o). intros x y A3 A5. eexists. split; [go_rk|cbn [fold_right]; eq_max]. } destruct AD as (k6 & A6 & E6).
  assert (AD2 : exists k, rk n (k_d2 o) k /\ k = fold_right Nat.max 0 [k6; k5; r3]).
  { change (k_d2 o) with (k_d1 o - k_sigma o * sqrn t)%num. revert A6 A5. generalize (k_d1 o) (k_sigma o). intros x y A6 A5. eexists. split; [go_rk|cbn [fold_right]; eq_max]. } destruct AD2 as (k7 & A7 & E7).
  split; [now exists k1|]. split; [now exists k2|]. split; [now exists k3|]. split; [now exists k5|]. split; [now exists k6|]. split; [now exists k7|].
  unfold kirk_call, kirk_put. change (k_Q2 o) with Q2. change (k_S2 o) with S2. change (k_K o) with K. change (k_r o) with r. change (k_t o) with t.
  revert A2 A3 A6 A7. generalize (k_e2 o) (k_S o) (k_d1 o) (k_d2 o). intros e2 x d1 d2 A2 A3 A6 A7. cbn [fold_right] in *.
  subst k1 k2 k3 k4 k5 k6 k7. split; (eapply rk_eq; [go_rk|eq_max]).
Qed.

Lemma kirk_items i (x1 x2 k t' r' c1 c2 g1 g2 rh q1 q2 : E) : i < n -> Forall (fits n) ins ->
  Forall2 (fun a x => item i a = Some x) ins [x1; x2; k; t'; r'; c1; c2; g1; g2; rh; q1; q2] ->
  at_ n i (kirk_call o) (kirk_call (KirkOption x1 x2 k t' r' c1 c2 g1 g2 rh q1 q2)) /\ at_ n i (kirk_put o) (kirk_put (KirkOption x1 x2 k t' r' c1 c2 g1 g2 rh q1 q2)).
Proof.
  intros Hi Hp Hq.
  assert (A : Forall2 (at_ n i) ins [x1; x2; k; t'; r'; c1; c2; g1; g2; rh; q1; q2]).
  { revert Hp Hq. generalize ins [x1; x2; k; t'; r'; c1; c2; g1; g2; rh; q1; q2]. intros l l' Hp Hq. revert Hp. induction Hq; intro Hp; constructor; inversion Hp; subst; [split; assumption|auto]. }
  clear Hp Hq. repeat match goal with H : Forall2 _ (_ :: _) (_ :: _) |- _ => apply F2_cons in H; destruct H as [? H] end. clear A.
  set (q := KirkOption x1 x2 k t' r' c1 c2 g1 g2 rh q1 q2).
  assert (A2 : at_ n i (k_e2 o) (k_e2 q)) by (unfold o, q; k_open; go_at).
  assert (A1 : at_ n i (k_e1 o) (k_e1 q)) by (unfold o, q; k_open; go_at).
  assert (A3 : at_ n i (k_S o) (k_S q)) by (unfold o, q; k_open; go_at).
  assert (A5 : at_ n i (k_sigma o) (k_sigma q)) by (unfold o, q; k_open; cbn [ofZ ArrNum]; go_at).
  assert (A6 : at_ n i (k_d1 o) (k_d1 q)).
  { change (k_d1 o) with (kD1 (k_S o) (k_sigma o) t). change (k_d1 q) with ((logn (k_S q) + lit (5#10) * k_sigma q ^ 2 * t') / (k_sigma q * sqrn t'))%num. unfold kD1. revert A3 A5. generalize (k_S o) (k_sigma o) (k_S q) (k_sigma q). intros. go_at. }
  assert (A7 : at_ n i (k_d2 o) (k_d2 q)).
  { change (k_d2 o) with (k_d1 o - k_sigma o * sqrn t)%num. change (k_d2 q) with (k_d1 q - k_sigma q * sqrn t')%num. revert A6 A5. generalize (k_d1 o) (k_sigma o) (k_d1 q) (k_sigma q). intros. go_at. }
  unfold kirk_call, kirk_put. change (k_Q2 o) with Q2. change (k_S2 o) with S2. change (k_K o) with K. change (k_r o) with r. change (k_t o) with t.
  change (k_Q2 q) with q2. change (k_S2 q) with x2. change (k_K q) with k. change (k_r q) with r'. change (k_t q) with t'.
  revert A2 A3 A6 A7. generalize (k_e2 o) (k_S o) (k_d1 o) (k_d2 o) (k_e2 q) (k_S q) (k_d1 q) (k_d2 q). intros. split; go_at.
Qed.

Lemma kirk_cov x : In x ins -> cov (len x) (k_d1 o).
Proof.
  intro Hx.
  assert (A1 : In x [b1; r; t] -> cov (len x) (k_e1 o)) by (intros [<-|[<-|[<-|[]]]]; unfold o; k_open; cbn [sub mul expn ArrNum]; go_cov).
  assert (A2 : In x [b2; r; t] -> cov (len x) (k_e2 o)) by (intros [<-|[<-|[<-|[]]]]; unfold o; k_open; cbn [sub mul expn ArrNum]; go_cov).
  assert (A3 : In x [Q1; S1; b1; r; t; Q2; S2; b2; K] -> cov (len x) (k_S o)).
  { intro Hx'. change (k_S o) with ((Q1 * S1 * k_e1 o) / kB Q2 S2 (k_e2 o) K r t)%num. unfold kB. revert A1 A2. generalize (k_e1 o) (k_e2 o). intros e1 e2 A1 A2. cbn [add mul div opp expn ArrNum].
    destruct Hx' as [<-|[<-|[<-|[<-|[<-|[<-|[<-|[<-|[<-|[]]]]]]]]]]; try go_cov; [specialize (A1 ltac:(now left)); go_cov|specialize (A2 ltac:(now left)); go_cov]. }
  assert (A5 : In x [s1; s2; rho] -> cov (len x) (k_sigma o)).
  { intro Hx'. change (k_sigma o) with (sqrn (s1 ^ 2 + (s2 * ((Q2 * S2 * k_e2 o) / kB Q2 S2 (k_e2 o) K r t)) ^ 2 - ofZ 2 * rho * s1 * s2 * ((Q2 * S2 * k_e2 o) / kB Q2 S2 (k_e2 o) K r t)))%num.
    generalize ((Q2 * S2 * k_e2 o) / kB Q2 S2 (k_e2 o) K r t)%num. intros F. cbn [add sub mul sqrn powi ofZ ArrNum]. destruct Hx' as [<-|[<-|[<-|[]]]]; go_cov. }
  change (k_d1 o) with (kD1 (k_S o) (k_sigma o) t). unfold kD1.
  assert (D : In x [Q1; S1; b1; r; t; Q2; S2; b2; K] \/ In x [s1; s2; rho]) by (cbn in Hx |- *; tauto).
  destruct D as [D|D]; [specialize (A3 D)|specialize (A5 D)]; generalize dependent (k_S o); generalize dependent (k_sigma o); intros; cbn [add mul div logn sqrn powi lit ArrNum]; go_cov.
Qed.
End Kirk.

(*@ C57_kirk | A SpreadApproxOption on arrays that fit together is built, and its call and put prices have the common shape and are position by position the prices of the scalar options *)
Lemma vec_kirk : forall (E : Type) (NE : Num E) (n : nat) (S1 S2 K t r b1 b2 s1 s2 rho Q1 Q2 : arr E),
  let ins := [S1; S2; K; t; r; b1; b2; s1; s2; rho; Q1; Q2] in Forall (fits n) ins ->
  exists o c u, vKirkOption S1 S2 K t r b1 b2 s1 s2 rho Q1 Q2 = Ok o /\ vkirk_call o = Ok c /\ vkirk_put o = Ok u /\ len c = joint ins /\ len u = joint ins /\
  forall i x1 x2 k t' r' c1 c2 g1 g2 rh q1 q2, i < n -> Forall2 (fun a x => item i a = Some x) ins [x1; x2; k; t'; r'; c1; c2; g1; g2; rh; q1; q2] ->
    let o' := KirkOption x1 x2 k t' r' c1 c2 g1 g2 rh q1 q2 in item i c = Some (kirk_call o') /\ item i u = Some (kirk_put o').
Proof.
  intros E NE n S1 S2 K t r b1 b2 s1 s2 rho Q1 Q2 ins Hp. set (o := KirkOption S1 S2 K t r b1 b2 s1 s2 rho Q1 Q2).
  destruct (kirk_ranks n S1 S2 K t r b1 b2 s1 s2 rho Q1 Q2 Hp) as ((k1 & R1) & (k2 & R2) & (k3 & R3) & (k4 & R4) & (k5 & R5) & (k6 & R6) & R7 & R8). fold o in R1, R2, R3, R4, R5, R6, R7, R8.
  exists o, (kirk_call o), (kirk_put o). split; [|split; [exact (rk_raised n _ _ R7)|split; [exact (rk_raised n _ _ R8)|]]].
  - unfold vKirkOption. cbn zeta. fold o. rewrite (rk_raised n _ _ R1), (rk_raised n _ _ R2), (rk_raised n _ _ R3), (rk_raised n _ _ R4), (rk_raised n _ _ R5), (rk_raised n _ _ R6). reflexivity.
  - rewrite (fold_rank n _ Hp). split; [exact (rk_len n _ _ R7)|]. split; [exact (rk_len n _ _ R8)|]. intros i x1 x2 k t' r' c1 c2 g1 g2 rh q1 q2 Hi Hq.
    destruct (kirk_items n S1 S2 K t r b1 b2 s1 s2 rho Q1 Q2 i x1 x2 k t' r' c1 c2 g1 g2 rh q1 q2 Hi Hp Hq) as [[_ A] [_ B]]. now split.
Qed.

Lemma raised_bad {E} (a : arr E) : raised a = Ok a \/ raised a = Err ValueError. Proof. destruct a; auto. Qed.
(*@ C57_kirk_mismatch | Parameters of a SpreadApproxOption whose lengths do not match (different, neither of them 1) make the constructor raise ValueError *)
Lemma vec_kirk_mismatch : forall (E : Type) (NE : Num E) (S1 S2 K t r b1 b2 s1 s2 rho Q1 Q2 x y : arr E),
  let ins := [S1; S2; K; t; r; b1; b2; s1; s2; rho; Q1; Q2] in In x ins -> In y ins -> clash x y ->
  vKirkOption S1 S2 K t r b1 b2 s1 s2 rho Q1 Q2 = Err ValueError.
Proof.
  intros E NE S1 S2 K t r b1 b2 s1 s2 rho Q1 Q2 x y ins Hx Hy C.
  assert (B := cov_clash x y _ C (kirk_cov S1 S2 K t r b1 b2 s1 s2 rho Q1 Q2 x Hx) (kirk_cov S1 S2 K t r b1 b2 s1 s2 rho Q1 Q2 y Hy)).
  unfold vKirkOption. cbn zeta. set (o := KirkOption S1 S2 K t r b1 b2 s1 s2 rho Q1 Q2) in *. rewrite B.
  destruct (raised_bad (k_e1 o)) as [-> | ->]; [cbn [bind]|reflexivity]. destruct (raised_bad (k_e2 o)) as [-> | ->]; [cbn [bind]|reflexivity].
  destruct (raised_bad (k_S o)) as [-> | ->]; [cbn [bind]|reflexivity]. destruct (raised_bad (k_sigma o)) as [-> | ->]; [cbn [bind]|reflexivity]. reflexivity.
Qed.

(*@ C57_american_rejects | RollGeskeWhaleyOption, BAWAmericanApproxOption and BSAmericanApproxOption refuse arrays: the guard of their constructors raises TypeError if and only if some argument is an array of two or more elements *)
Lemma vec_american : forall (E : Type) (NE : Num E) (args : list (arr E)),
  american_guard args = Err TypeError <-> exists a k, In a args /\ len a = Some k /\ 2 <= k.
Proof.
  intros E NE args. unfold american_guard, check_array. destruct (existsb _ args) eqn:X; split; intro H; try discriminate; try reflexivity.
  - apply existsb_exists in X. destruct X as (a & Ha & Hl). destruct a as [|l|]; try discriminate. exists (Ve l), (length l). apply Nat.ltb_lt in Hl. cbn. auto.
  - exfalso. destruct H as (a & k & Ha & Hk & H2). assert (T := proj2 (existsb_exists (fun a => match a with Ve l => Nat.ltb 1 (length l) | _ => false end) args)).
    rewrite T in X; [discriminate|]. exists a. split; [exact Ha|]. destruct a as [|l|]; try discriminate. cbn in Hk. injection Hk as <-. apply Nat.ltb_lt. lia.
Qed.

(*@ C57_black76 | Black76Option on arrays: prices, every Greek, rho() and the dictionary greeks() are element by element what scalar Black76Options return *)
Lemma vec_black76 : forall (E : Type) (NE : Num E) (n : nat) (FT K t r sigma : arr E) (call : bool), n <> 0 ->
  fits n FT -> fits n K -> fits n t -> fits n r -> fits n sigma ->
  exists o rho vs, vBlack76Option FT K t r (Some sigma) = Ok o /\ vgbs_rho call o = Ok rho /\ len rho = joint [FT; K; t; r; sigma] /\
    vgbs_greeks call o = Ok vs /\ Forall (fun v => len v = joint [FT; K; t; r; sigma]) vs /\
    (forall q, exists v, vask q o = Ok v /\ fits n v /\ len v = joint [FT; K; t; r; sigma] /\
      forall i f k t' r' sg, i < n -> item i FT = Some f -> item i K = Some k -> item i t = Some t' -> item i r = Some r' -> item i sigma = Some sg ->
      exists x, item i v = Some x /\ ask q (Black76Option f k t' r' (Some sg)) = Ok x) /\
    forall i f k t' r' sg, i < n -> item i FT = Some f -> item i K = Some k -> item i t = Some t' -> item i r = Some r' -> item i sigma = Some sg ->
      let o' := Black76Option f k t' r' (Some sg) in
      (exists x, item i rho = Some x /\ gbs_rho call o' = Ok x) /\ exists xs, gbs_greeks call o' = Ok xs /\ Forall2 (fun v x => item i v = Some x) vs xs.
Proof.
  intros E NE n FT K t r sigma call Hn H1 H2 H3 H4 H5.
  destruct (vec_greeks E NE n FT K t r (Sc (lit 0)) sigma call Hn H1 H2 H3 H4 Coq.Init.Logic.I H5 ltac:(discriminate)) as (o & rho & vs & G1 & G2 & G3 & G4 & G5 & G6).
  destruct (vec_elementwise E NE n FT K t r (Sc (lit 0)) sigma H1 H2 H3 H4 Coq.Init.Logic.I H5) as (o2 & E1 & E2). rewrite G1 in E1. injection E1 as <-.
  exists o, rho, vs. split; [exact G1|]. split; [exact G2|]. split; [exact G3|]. split; [exact G4|]. split; [exact G5|]. split.
  - intro q. destruct (E2 q) as (v & V1 & V2 & V3 & V4). exists v. split; [exact V1|]. split; [exact V2|]. split; [exact V3|]. intros i f k t' r' sg Hi I1 I2 I3 I4 I5. exact (V4 i f k t' r' (lit 0) sg Hi I1 I2 I3 I4 eq_refl I5).
  - intros i f k t' r' sg Hi I1 I2 I3 I4 I5. exact (G6 i f k t' r' (lit 0) sg Hi I1 I2 I3 I4 eq_refl I5).
Qed.
