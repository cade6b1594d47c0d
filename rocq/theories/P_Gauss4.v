(** Generators of precision matrices: the evolution of the starting matrices, and the fixed-sparsity generator. *)
From Coq Require Import Reals String.
From mathcomp Require Import all_ssreflect all_algebra.
From Verif Require Import RStruct RTac NP Str S_Mat RMx Spectral S_Utils M_Utils P_Utils2 M_Ising P_Ising7 M_Gauss P_Gauss P_Gauss2 P_Gauss3.
Import Order.TTheory GRing.Theory Num.Theory.

Set Implicit Arguments.
Unset Strict Implicit.
Unset Printing Implicit Defensive.
Local Open Scope ring_scope.

Section Cov.
Variables (chol : chol_t) (eigh : eigh_t).
Hypothesis cok : chols_ok chol.
Hypothesis eok : eighs_ok eigh.
Variables (p h : nat).
Notation state := ('M[R]_p * 'M[R]_p * 'M[R]_(h, p))%type.

Lemma fold_raise (S : Type) (step : nat -> S -> option (ires S)) (st0 : S) (a : option (ires (seq S))) ts :
  (forall l, a <> Some (IOk l)) ->
  foldl (fun acc t => match acc with
      | Some (IOk l) => match step t (last st0 l) with
        | Some (IOk st) => Some (IOk (rcons l st)) | Some (IRaise e) => Some (IRaise e) | None => None end
      | _ => acc end) a ts = a.
Proof. by move=> na; elim: ts => //= t ts IH; case: a na IH => [[l|e]|] // na _; case: (na l). Qed.
Lemma fold_unfold (S : Type) (step : nat -> S -> option (ires S)) (st0 : S) n k l0 l : size l0 = k -> (0 < k)%N ->
  foldl (fun acc t => match acc with
      | Some (IOk l) => match step t (last st0 l) with
        | Some (IOk st) => Some (IOk (rcons l st)) | Some (IRaise e) => Some (IRaise e) | None => None end
      | _ => acc end) (Some (IOk l0)) (iota k n) = Some (IOk l) ->
  [/\ size l = (k + n)%N, take k l = l0 & forall t, (k <= t.+1 < k + n)%N -> step t.+1 (nth st0 l t) = Some (IOk (nth st0 l t.+1))].
Proof.
elim: n k l0 => [|n IH] k l0 sz k0 /=.
  by case=> <-; split; rewrite ?addn0 // -?sz ?take_size // => t /andP [a b]; rewrite ltnNge a in b.
case E: (step k (last st0 l0)) => [[st|e]|]; last by rewrite fold_raise.
  move/(IH k.+1 (rcons l0 st)); rewrite size_rcons sz => /(_ erefl isT) [sl tk hs].
  have lE : l0 = take k l by rewrite -(take_take (leqnSn k)) tk -cats1 take_size_cat.
  have kl : (k < size l)%N by rewrite sl leq_addr.
  split; first by rewrite sl addnS.
    by rewrite lE.
  move=> t; rewrite leq_eqVlt => /andP [/orP [/eqP kt|kt] tk2]; last by apply: hs; rewrite kt addSnnS.
  rewrite -kt; have -> : nth st0 l t = last st0 l0.
    by rewrite -nth_last sz lE nth_take kt.
  have -> : nth st0 l k = st by rewrite -(nth_take st0 (ltnSn k)) tk nth_rcons sz ltnn eqxx.
  by [].
by rewrite fold_raise.
Qed.
Variables (ue ut : string) (normalize : bool) (degree no : nat) (epsilon : R) (K0 : 'M[R]_(h, p)).
Variables (choice : 'I_p -> seq 'I_p -> nat -> seq 'I_p) (d : nat -> cov_draws p h) (fuel : nat).
Lemma cov_unfold T l : make_covariance chol eigh T ue ut normalize degree no epsilon K0 choice d fuel = Some (IOk l) ->
  exists st0, [/\ make_starting chol eigh degree normalize c001 K0 choice = IOk st0, size l = maxn 1 T, nth st0 l 0 = st0
    & forall t, (t.+1 < maxn 1 T)%N -> cov_step chol eigh ue ut no epsilon fuel (d t.+1) (nth st0 l t) = Some (IOk (nth st0 l t.+1))].
Proof.
rewrite /make_covariance; case E: (make_starting _ _ _ _ _ _ _) => [st0|] // hf.
have [|//|sl tk hs] := @fold_unfold state (fun t => cov_step chol eigh ue ut no epsilon fuel (d t)) st0 _ 1 _ l _ _ hf => //.
have m : (1 + T.-1 = maxn 1 T)%N by case: T {sl hs tk hf} => [|T] //=; rewrite maxnE subn1.
exists st0; split=> //; first by rewrite sl.
  by rewrite -(nth_take st0 (ltn0Sn 0)) tk.
by move=> t tm; apply: hs; rewrite /= m.
Qed.
(** what one successful step does *)
Lemma step_spec (dd : cov_draws p h) theta L (K : 'M[R]_(h, p)) theta' L' (K' : 'M[R]_(h, p)) : cov_step chol eigh ue ut no epsilon fuel dd (theta, L, K) = Some (IOk (theta', L', K')) ->
  L = K^T *m K ->
  exists th, [/\ (ut = "l1"%string /\ update_theta_l1 chol theta no (cd_pairs dd) (cd_pick dd) fuel c001 = Some th) \/
                 (ut = "l2"%string /\ th = update_theta_l2 theta (cd_add dd) epsilon),
    theta' = repair_ell chol th L' epsilon, L' = K'^T *m K', \rank L' = h & ue = "fixed"%string -> L' = L].
Proof.
rewrite /cov_step => + LE; case: eqP => [e1|_].
  case U: (update_theta_l1 _ _ _ _ _ _ _) => [th|] //.
  case: ifP => [uf|/negbT uf].
    case: eqP => //= r; case: ifP => // _ [<- <- <-]; exists th; split=> //; by left.
  have nf : ue <> "fixed"%string by move=> e; move: uf; rewrite e eqxx.
  case: eqP => _; first by case: eqP => //= r; case: ifP => // _ [<- <- <-]; exists th; split=> //; by left.
  case: eqP => _; first by case: eqP => //= r; case: ifP => // _ [<- <- <-]; exists th; split=> //; by left.
  case: eqP => _ //; by case: eqP => //= r; case: ifP => // _ [<- <- <-]; exists th; split=> //; left.
case: eqP => // e2.
case: ifP => [uf|/negbT uf].
  case: eqP => //= r; case: ifP => // _ [<- <- <-]; eexists; split=> //; by right.
have nf : ue <> "fixed"%string by move=> e; move: uf; rewrite e eqxx.
case: eqP => _; first by case: eqP => //= r; case: ifP => // _ [<- <- <-]; eexists; split=> //; by right.
case: eqP => _; first by case: eqP => //= r; case: ifP => // _ [<- <- <-]; eexists; split=> //; by right.
case: eqP => _ //; by case: eqP => //= r; case: ifP => // _ [<- <- <-]; eexists; split=> //; right.
Qed.
Hypothesis cho : choice_ok choice.
Hypothesis e0 : 0 <= epsilon.
Hypothesis szp : forall t n, size (cd_pairs (d t) n) = no.
Variables (T : nat) (l : seq state).
Hypothesis run : make_covariance chol eigh T ue ut normalize degree no epsilon K0 choice d fuel = Some (IOk l).
Definition th t : 'M[R]_p := (nth (0, 0, 0) l t).1.1.
Definition el t : 'M[R]_p := (nth (0, 0, 0) l t).1.2.
Definition kh t : 'M[R]_(h, p) := (nth (0, 0, 0) l t).2.
Lemma run_spec : [/\ size l = maxn 1 T, make_starting chol eigh degree normalize c001 K0 choice = IOk (th 0, el 0, kh 0)
   & forall t, (t.+1 < maxn 1 T)%N ->
       cov_step chol eigh ue ut no epsilon fuel (d t.+1) (th t, el t, kh t) = Some (IOk (th t.+1, el t.+1, kh t.+1))].
Proof.
have [st0 [e sl z hs]] := cov_unfold run; rewrite /th /el /kh; split=> //.
  rewrite e; congr IOk; rewrite -{1}z (set_nth_default (0, 0, 0)) ?sl ?leq_max //.
  by case: (nth _ _ _) => [[]].
move=> t tm; have := hs t tm; rewrite !(set_nth_default (0, 0, 0) st0) ?sl ?(ltnW tm) //.
by case: (nth _ _ t) => [[a b] c]; case: (nth _ _ t.+1) => [[a' b'] c'].
Qed.
Lemma all_times t : (t < maxn 1 T)%N ->
  [/\ sym (th t), el t = (kh t)^T *m kh t, \rank (el t) = h & ut = "l1"%string -> nonneg (th t) /\ pd (th t)].
Proof.
have [sl e hs] := run_spec.
elim: t => [|t IH] tm.
  have [E s nn dd _] := starting_ok cok eok cho c001_gt0 e; have [LE _ r _] := ell_spec eok E.
  by split.
have [s LE r q] := IH (ltnW tm).
have [th' [u tE lE rk _]] := step_spec (hs t tm) LE.
have Ld : psd (el t.+1) by rewrite lE; exact: gram_psd.
rewrite tE; case: u => [[ul u]|[ul u]].
  have [nn dd] := q ul; have [s1 n1 d1 _] := update_l1_ok cok (szp t.+1) s nn c001_gt0 u.
  by have [s2 n2 d2] := ell_ok chol s1 n1 d1 Ld e0; split.
split=> //; first by apply: ell_sym; rewrite u; exact: update_l2_sym.
by rewrite ul.
Qed.
Lemma start_observed : pd (th 0 - el 0).
Proof. by have [sl e hs] := run_spec; have [_ _ _ _ ] := starting_ok cok eok cho c001_gt0 e. Qed.
(** the off-diagonal entries that change between two times *)
Lemma l1_moves t : ut = "l1"%string -> (t.+1 < maxn 1 T)%N -> exists ps : seq ('I_p * 'I_p), [/\ (size ps <= no)%N,
      forall i j, i != j -> ~~ in_pair ps i j -> th t.+1 i j = th t i j
    & forall i j, i != j -> in_pair ps i j -> [\/ th t.+1 i j = 0, th t.+1 i j = c012 | th t.+1 i j = c006]].
Proof.
move=> ul tm; have [sl e hs] := run_spec; have [s LE r q] := all_times (ltnW tm); have [nn dd] := q ul.
have [th' [u tE lE rk _]] := step_spec (hs t tm) LE.
case: u => [[_ u]|[ul2 _]]; last by rewrite ul in ul2.
have [s1 n1 d1 [ps [sp o v]]] := update_l1_ok cok (szp t.+1) s nn c001_gt0 u.
by exists ps; split=> // i j ij ip; rewrite tE ell_off //; [exact: o | exact: v].
Qed.
Lemma fixed_ell t : ue = "fixed"%string -> (t < maxn 1 T)%N -> el t = el 0.
Proof.
move=> ef; have [sl e hs] := run_spec; elim: t => // t IH tm; rewrite -IH ?(ltnW tm) //.
by have [s LE r q] := all_times (ltnW tm); have [th' [_ _ _ _ ->]] := step_spec (hs t tm) LE.
Qed.
End Cov.
