(** A root finder for the examples beside C58: it returns one given point where that is a solution and raises elsewhere. *)
From Coq Require Import Reals QArith ZArith List Bool Arith Lia Lra.
From Verif Require Import Num Py MBase MVanilla MVector SVector PVector PVector2.
Import ListNotations.
Open Scope R_scope.
Definition all_zero (l : list R) : bool := forallb (fun x => if Req_EM_T x 0 then true else false) l.
Definition one_shot (l0 : list R) (f : arr R -> res (arr R)) (x0 : list R) : res (list R * bool) :=
  if Nat.eqb (length l0) (length x0) then
    match f (Ve l0) with
    | Ok (Ve l) => if andb (Nat.eqb (length l) (length x0)) (all_zero l) then Ok (l0, true) else Err ValueError
    | _ => Err ValueError
    end
  else Err ValueError.
Lemma all_zero_repeat l : all_zero l = true -> l = repeat 0 (length l).
Proof. induction l as [|x l IH]; [reflexivity|]. cbn. destruct (Req_EM_T x 0) as [->|]; [|discriminate]. cbn. intro H. f_equal. now apply IH. Qed.
Lemma one_shot_sound l0 f x0 l ok : one_shot l0 f x0 = Ok (l, ok) -> length l = length x0 /\ f (Ve l) = Ok (Ve (repeat 0 (length x0))).
Proof.
  unfold one_shot. destruct (Nat.eqb (length l0) (length x0)) eqn:L0; [|discriminate]. apply Nat.eqb_eq in L0.
  destruct (f (Ve l0)) as [[x|m|]|] eqn:Ef; try discriminate. destruct (Nat.eqb (length m) (length x0)) eqn:L; [|discriminate]. destruct (all_zero m) eqn:Z; [|discriminate].
  cbn [andb]. intro H. apply Ok_inj in H. injection H as <- _. split; [exact L0|]. rewrite Ef. apply Nat.eqb_eq in L. now rewrite (all_zero_repeat m Z), L.
Qed.
(** two options with quotes taken at the volatilities 1/5 and 1/3 *)
Definition vols : list R := [1/5; 1/3].
Definition quotes : arr R := match vgbs_call (GBSOption (Sc 100) (Sc 95) (Sc 1) (Sc (1/10)) (Sc 0) (Some (Ve vols))) with Ok v => v | Err _ => Bad end.
Lemma quotes_two : exists a b, quotes = Ve [a; b].
Proof.
  unfold quotes. destruct (vec_elementwise R _ 2 (Sc 100) (Sc 95) (Sc 1) (Sc (1/10)) (Sc 0) (Ve vols) Coq.Init.Logic.I Coq.Init.Logic.I Coq.Init.Logic.I Coq.Init.Logic.I Coq.Init.Logic.I (or_introl eq_refl)) as (o & Ho & HQ).
  assert (Eo : o = GBSOption (Sc 100) (Sc 95) (Sc 1) (Sc (1/10)) (Sc 0) (Some (Ve vols))).
  { rewrite (gbs_ok 2 (Sc 100) (Sc 95) (Sc 1) (Sc (1/10)) (Sc 0) (Ve vols) Coq.Init.Logic.I Coq.Init.Logic.I Coq.Init.Logic.I Coq.Init.Logic.I (or_introl eq_refl)) in Ho. apply Ok_inj in Ho. now symmetry. }
  destruct (HQ (Price true)) as (v & Hv & _ & Lv & _). cbn [vask] in Hv. rewrite Eo in Hv. rewrite Hv.
  assert (L2 : len v = Some 2%nat) by exact Lv. destruct v as [x|[|x [|y [|z l]]]|]; try discriminate. now exists x, y.
Qed.
Lemma vol_found : vgbs_volatility (one_shot vols) (fun _ a _ => Ok a) (GBSOption (Sc 100) (Sc 95) (Sc 1) (Sc (1/10)) (Sc 0) None) quotes true = Ok (Ve vols).
Proof.
  destruct quotes_two as (a & b & Eq). set (o := GBSOption (Sc 100) (Sc 95) (Sc 1) (Sc (1/10)) (Sc 0) None).
  assert (F : vvol_func o true quotes (Ve vols) = Ok (Ve [a - a; b - b])).
  { unfold vvol_func. change (g_S o) with (Sc 100). change (g_K o) with (Sc 95). change (g_t o) with (Sc 1). change (g_r o) with (Sc (1/10)). change (g_b o) with (Sc 0).
    rewrite (gbs_ok 2 (Sc 100) (Sc 95) (Sc 1) (Sc (1/10)) (Sc 0) (Ve vols) Coq.Init.Logic.I Coq.Init.Logic.I Coq.Init.Logic.I Coq.Init.Logic.I (or_introl eq_refl)). cbn [bind].
    pose proof Eq as Eq'. unfold quotes in Eq'.
    destruct (vgbs_call (GBSOption (Sc 100) (Sc 95) (Sc 1) (Sc (1/10)) (Sc 0) (Some (Ve vols)))) as [v|]; [|discriminate]. cbn [bind]. subst v. rewrite Eq. reflexivity. }
  rewrite Eq in *. unfold vgbs_volatility. change (check_array (Ve [a; b] :: _)) with true. cbv iota.
  change (map _ (max_array (Ve [a; b] :: _))) with [lit 1; lit 1 : R].
  unfold one_shot. cbn [length vols Nat.eqb]. change [1/5; 1/3] with vols. rewrite F. cbn [length Nat.eqb all_zero forallb andb].
  destruct (Req_EM_T (a - a) 0) as [_|N]; [|exfalso; lra]. destruct (Req_EM_T (b - b) 0) as [_|N]; [|exfalso; lra]. reflexivity.
Qed.
