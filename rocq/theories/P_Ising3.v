(** Metropolis-Hastings: the law of what is returned. *)
From Coq Require Import Reals.
From mathcomp Require Import all_ssreflect all_algebra.
From Verif Require Import RStruct RTac S_Prob P_Prob S_Ising M_Ising P_Ising P_Ising2.
Import Order.TTheory GRing.Theory Num.Theory.

Set Implicit Arguments.
Unset Strict Implicit.
Unset Printing Implicit Defensive.
Local Open Scope ring_scope.

Section Run.
Variable p : nat.
Variables (theta : 'M[R]_p) (thr : 'I_p -> R) (beta : R) (r : R * R).
Local Notation config := (config p).
Local Notation pconfig := (pconfig p).
Local Notation pp := (pp theta thr beta r).

Section K.
Variable K : eqType.
Definition rstep (d : K -> R) (c : config) (ki : K * 'I_p) : config := setb c ki.2 (d ki.1 < pp ki.2 c)%R.
Definition run (d : K -> R) (c : config) (L : seq (K * 'I_p)) : config := foldl (rstep d) c L.

Lemma run_cat d c L L' : run d c (L ++ L') = run d (run d c L) L'.
Proof. exact: foldl_cat. Qed.
Lemma run_ext d d' c L : {in map fst L, d =1 d'} -> run d c L = run d' c L.
Proof.
elim: L c => [|ki L IH] c e //=; rewrite /rstep e ?mem_head //; apply: IH => k kL; apply: e.
by rewrite inE kL orbT.
Qed.
Lemma expect_run g L h c d0 : grid_ok g -> (forall i c, pp i c \in g) -> uniq (map fst L) ->
  expect g (map fst L) (fun d => h (run d c L)) d0 = hbs theta thr beta r (map snd L) h c.
Proof.
move=> gok gp; elim: L c d0 => [|[k i] L IH] c d0 //= /andP [kn un].
rewrite /hb -(expect1_if gok _ _ (gp i c)); apply: expect1_eq => u.
rewrite (expect_eq_in gok (h := fun d => h (run d (setb c i (u < pp i c)%R) L))) //.
  by rewrite IH //; case: (u < _).
by move=> d [_ o]; rewrite /rstep /= o // /assign eqxx.
Qed.
End K.

Lemma values_inj : r.1 != r.2 -> injective (values r (p := p)).
Proof.
move=> ne c c' e; apply/ffunP=> i; move/ffunP: e => /(_ i); rewrite !ffunE /response.
by case: (c i) (c' i) => [] [] // => [e|/esym e]; move: ne; rewrite e eqxx.
Qed.

Section MH.
Variable x : pconfig.
Hypotheses (m0 : r.1 != minimum) (m1 : r.2 != minimum).
Local Notation cons := (pvalues r minimum x).
Lemma cons_known i : (cons i != minimum) = (x i != None).
Proof. by rewrite ffunE; case: (x i) => [[]|] /=; rewrite ?m0 ?m1 ?eqxx. Qed.

Definition frees (l : seq 'I_p) := [seq i <- l | x i == None].

Lemma mh_run unif c k l :
  foldl (mh_site theta thr beta r cons unif) (values r c, k) l =
  (values r (run unif c (zip (iota k (size (frees l))) (frees l))), (k + size (frees l))%N).
Proof.
elim: l c k => [|i l IH] c k; first by rewrite /= addn0.
rewrite [foldl _ _ _]/= cons_known /=; case: (x i == None) => /=; last exact: IH.
rewrite -[(if _ then r.2 else r.1)]/(response r (unif k < pp i c)%R) put_setb IH addSnnS; congr (values r _, _).
Qed.

Definition sitesN (N : nat) : seq 'I_p := sweeps (frees (enum 'I_p)) N.
Lemma size_sweeps (F : seq 'I_p) N : size (sweeps F N) = (N * size F)%N.
Proof. by rewrite /sweeps; elim: N => //= N IH; rewrite size_cat IH mulSn. Qed.

Lemma mh_sweeps unif c k N :
  iter N (mh_sweep theta thr beta r cons unif) (values r c, k) =
  (values r (run unif c (zip (iota k (size (sitesN N))) (sitesN N))), (k + size (sitesN N))%N).
Proof.
elim: N c k => [|N IH] c k; first by rewrite /= addn0.
rewrite iterSr {2}/mh_sweep mh_run IH; set F := frees _.
have e : sitesN N.+1 = F ++ sitesN N by [].
rewrite e size_cat iota_add zip_cat ?size_iota // run_cat addnA //.
Qed.

Definition c_start (unif : nat -> R) : config := [ffun i => if x i is Some b then b else (unif i < 1 / 2%:R)%R].
Lemma mh_startE unif : mh_start r cons unif = values r (c_start unif).
Proof.
apply/ffunP=> i; rewrite ffunE cons_known !ffunE.
by case: (x i) => [b|] //=; case: (_ < _).
Qed.
Lemma agrees_start unif : agrees x (c_start unif).
Proof. by apply/forallP=> i; rewrite ffunE; case: (x i) => /=. Qed.

Definition nfree : nat := #|[pred i | x i == None]|.
Lemma nfreeE : size (frees (enum 'I_p)) = nfree.
Proof. by rewrite /frees /nfree cardE {1}enumT. Qed.

Lemma mhE N unif : ising_metropolis_hastings theta thr beta r N cons unif =
  values r (run unif (c_start unif) (zip (iota p (N * nfree)) (sitesN N))).
Proof. by rewrite /ising_metropolis_hastings mh_startE mh_sweeps size_sweeps nfreeE. Qed.

Lemma mh_close (a : R) (g : seq R) N c : theta = theta^T -> r.1 != r.2 -> grid_ok g -> (forall i c, pp i c \in g) ->
  0 < a -> (forall i c, a <= pp i c) ->
  `|prob g (iota 0 (p + N * nfree)) (fun u => ising_metropolis_hastings theta thr beta r N cons u == values r c) -
    ising_law theta thr beta r x c| <= (1 - a ^+ nfree) ^+ N.
Proof.
move=> sym ne gok gp a0 al.
pose h c' : R := (c' == c)%:R.
have Ff i : i \in frees (enum 'I_p) -> x i = None by rewrite mem_filter => /andP [/eqP].
have Fa i : x i = None -> i \in frees (enum 'I_p) by rewrite mem_filter mem_enum => ->; rewrite eqxx.
have LE : \sum_(c' | agrees x c') ising_law theta thr beta r x c' * h c' = ising_law theta thr beta r x c.
  case ac : (agrees x c); last first.
    rewrite big1 ?/ising_law ?ac // => c' ac'; rewrite /h; case: eqP ac' => [->|]; rewrite ?ac ?mulr0 //.
  rewrite (bigD1 c) //= /h eqxx mulr1 big1 ?addr0 // => c' /andP [_ nc]; by rewrite (negbTE nc) mulr0.
have close c0 (ac0 : agrees x c0) := hbs_close a0 al Ff Fa N sym (h := h) _ ac0.
have h01 c' : agrees x c' -> 0 <= h c' <= 1 by rewrite /h; case: eqP => _ _; rewrite ?lexx ?ler01.
rewrite iota_add add0n /prob expect_cat.
pose L := zip (iota p (N * nfree)) (sitesN N).
have fstL : map fst L = iota p (N * nfree) by rewrite -/unzip1 unzip1_zip // size_iota size_sweeps nfreeE.
have sndL : map snd L = sitesN N by rewrite -/unzip2 unzip2_zip // size_iota size_sweeps nfreeE.
have inner d0 : expect g (iota p (N * nfree)) (fun d => (ising_metropolis_hastings theta thr beta r N cons d == values r c)%:R) d0
   = hbs theta thr beta r (sitesN N) h (c_start d0).
  rewrite -sndL -(expect_run h (c_start d0) d0 gok gp) fstL ?iota_uniq //.
  apply: (expect_eq_in gok); rewrite ?iota_uniq // => d [_ o]; rewrite mhE -/L (inj_eq (values_inj ne)).
  have -> // : c_start d = c_start d0.
  by apply/ffunP=> i; rewrite !ffunE o // mem_iota leqNgt ltn_ord.
rewrite (expect_eq _ _ _ inner) -LE; set pi := \sum_(c' | _) _; set q := (1 - _) ^+ N.
have B d : - q <= hbs theta thr beta r (sitesN N) h (c_start d) - pi <= q.
  by rewrite -ler_norml; have := close h01 _ (agrees_start d); rewrite nfreeE.
rewrite -{1}(expect_const gok (iota 0 p) pi (fun=> 0)) -expectB ler_norml; apply/andP; split.
  rewrite -{1}(expect_const gok (iota 0 p) (- q) (fun=> 0)); apply: (expect_le gok); rewrite ?iota_uniq // => d _; by case/andP: (B d).
rewrite -{1}(expect_const gok (iota 0 p) q (fun=> 0)); apply: (expect_le gok); rewrite ?iota_uniq // => d _; by case/andP: (B d).
Qed.
End MH.
End Run.
