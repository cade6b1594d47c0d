(** Calculus on the reals of the standard library: log-cosh, exponential, quadratic upper bounds.
    Infrastructure only. *)
From Coq Require Import Reals Lra Psatz ssreflect.
Set Implicit Arguments.
Unset Strict Implicit.
Local Open Scope R_scope.


Definition lch (u : R) : R := ln (exp u + exp (- u)).
Definition th (u : R) : R := (exp u - exp (- u)) / (exp u + exp (- u)).
Lemma ch_gt0 u : 0 < exp u + exp (- u).
Proof. by have := exp_pos u; have := exp_pos (- u); lra. Qed.

Lemma d_exp u : derivable_pt_lim exp u (exp u).
Proof. exact: derivable_pt_lim_exp. Qed.
Lemma d_expN u : derivable_pt_lim (fun x => exp (- x)) u (- exp (- u)).
Proof.
have h := derivable_pt_lim_comp Ropp exp u (-1) (exp (- u)) _ (d_exp _).
have e : exp (- u) * -1 = - exp (- u) by ring.
rewrite -e; apply: h.
have := derivable_pt_lim_opp id u 1 (derivable_pt_lim_id u).
by have -> : - (1) = -1 by ring.
Qed.
Lemma d_ch u : derivable_pt_lim (fun x => exp x + exp (- x)) u (exp u - exp (- u)).
Proof. exact: (derivable_pt_lim_plus _ _ _ _ _ (d_exp u) (d_expN u)). Qed.
Lemma d_sh u : derivable_pt_lim (fun x => exp x - exp (- x)) u (exp u + exp (- u)).
Proof.
have := derivable_pt_lim_minus _ _ _ _ _ (d_exp u) (d_expN u).
by have -> : exp u - - exp (- u) = exp u + exp (- u) by ring.
Qed.
Lemma d_lch u : derivable_pt_lim lch u (th u).
Proof.
have := derivable_pt_lim_comp (fun x => exp x + exp (- x)) ln u _ _ (d_ch u)
          (derivable_pt_lim_ln _ (ch_gt0 u)).
by rewrite (Rmult_comm (/ _)) => h; exact: h.
Qed.
Lemma d_th u : derivable_pt_lim th u (1 - th u * th u).
Proof.
have c0 := ch_gt0 u.
have := derivable_pt_lim_div _ _ _ _ _ (d_sh u) (d_ch u) (not_eq_sym (Rlt_not_eq _ _ c0)).
have -> : ((exp u + exp (- u)) * (exp u + exp (- u)) - (exp u - exp (- u)) * (exp u - exp (- u))) /
   Rsqr (exp u + exp (- u)) = 1 - th u * th u.
  by rewrite /th /Rsqr; field; lra.
by [].
Qed.
Lemma th_lt1 u : -1 < th u < 1.
Proof.
have c0 := ch_gt0 u; have a := exp_pos u; have b := exp_pos (- u).
have e : th u * (exp u + exp (- u)) = exp u - exp (- u) by rewrite /th; field; lra.
split; nra.
Qed.
Lemma th0 : th 0 = 0.
Proof. by rewrite /th Ropp_0 exp_0; field. Qed.
Lemma lch0 : lch 0 = ln 2.
Proof. by rewrite /lch Ropp_0 exp_0. Qed.

(** a function with a Lipschitz derivative lies below its quadratic model *)
Lemma quadratic_bound (f f' : R -> R) (L u v : R) :
  (forall c, Rmin u v <= c <= Rmax u v -> derivable_pt_lim f c (f' c)) ->
  (forall c, Rmin u v <= c <= Rmax u v -> (f' c - f' u) * (c - u) <= L * ((c - u) * (c - u))) ->
  f v <= f u + f' u * (v - u) + L / 2 * ((v - u) * (v - u)).
Proof.
move=> hd hl.
pose g := fun x => f x - (f u + f' u * (x - u) + L / 2 * ((x - u) * (x - u))).
have dg c : Rmin u v <= c <= Rmax u v -> derivable_pt_lim g c (f' c - (f' u + L * (c - u))).
  move=> hc; apply: derivable_pt_lim_minus; first exact: hd.
  have d1 : derivable_pt_lim (fun x => x - u) c 1.
    have := derivable_pt_lim_minus _ _ c _ _ (derivable_pt_lim_id c) (derivable_pt_lim_const u c).
    by rewrite Rminus_0_r.
  have d2 := derivable_pt_lim_scal _ (f' u) _ _ d1.
  have d3 := derivable_pt_lim_scal _ (L / 2) _ _ (derivable_pt_lim_mult _ _ _ _ _ d1 d1).
  have d4 := derivable_pt_lim_plus _ _ _ _ _ (derivable_pt_lim_plus _ _ _ _ _ (derivable_pt_lim_const (f u) c) d2) d3.
  have e : f' u + L * (c - u) = 0 + f' u * 1 + L / 2 * (1 * (c - u) + (c - u) * 1) by field.
  by rewrite e; apply: d4.
have g0 : g u = 0 by rewrite /g; ring.
suff : g v <= 0 by rewrite /g; lra.
have [uv|[<-|vu]] := Rtotal_order u v; [|lra|].
- have [c [e hc]] := MVT_cor2 g _ u v uv (fun c hc => dg c ltac:(rewrite Rmin_left ?Rmax_right; lra)).
  have h := hl c ltac:(rewrite Rmin_left ?Rmax_right; lra).
  rewrite g0 in e.
  have h1 : (f' c - f' u - L * (c - u)) * (c - u) <= 0 by nra.
  have h2 : f' c - f' u - L * (c - u) <= 0 by nra.
  nra.
- have [c [e hc]] := MVT_cor2 g _ v u vu (fun c hc => dg c ltac:(rewrite Rmin_right ?Rmax_left; lra)).
  have h := hl c ltac:(rewrite Rmin_right ?Rmax_left; lra).
  rewrite g0 in e.
  have h1 : (f' c - f' u - L * (c - u)) * (c - u) <= 0 by nra.
  have h2 : 0 <= f' c - f' u - L * (c - u) by nra.
  nra.
Qed.

(** slope of a function with bounded derivative *)
Lemma slope_bound (f f' : R -> R) (L u v : R) :
  (forall c, Rmin u v <= c <= Rmax u v -> derivable_pt_lim f c (f' c)) ->
  (forall c, Rmin u v <= c <= Rmax u v -> f' c <= L) ->
  (f v - f u) * (v - u) <= L * ((v - u) * (v - u)).
Proof.
move=> hd hl.
have [uv|[<-|vu]] := Rtotal_order u v; [|lra|].
- have [c [e hc]] := MVT_cor2 f f' u v uv (fun c hc => hd c ltac:(rewrite Rmin_left ?Rmax_right; lra)).
  have h := hl c ltac:(rewrite Rmin_left ?Rmax_right; lra).
  rewrite e Rmult_assoc; apply: Rmult_le_compat_r h; nra.
- have [c [e hc]] := MVT_cor2 f f' v u vu (fun c hc => hd c ltac:(rewrite Rmin_right ?Rmax_left; lra)).
  have h := hl c ltac:(rewrite Rmin_right ?Rmax_left; lra).
  have -> : f v - f u = f' c * (v - u) by lra.
  rewrite Rmult_assoc; apply: Rmult_le_compat_r h; nra.
Qed.

Lemma lch_quadratic u v : lch v <= lch u + th u * (v - u) + 1 / 2 * ((v - u) * (v - u)).
Proof.
apply: (quadratic_bound (f' := th)) => c _; first exact: d_lch.
apply: (slope_bound (f' := fun x => 1 - th x * th x)) => x _; first exact: d_th.
nra.
Qed.
Lemma exp_le x y : x <= y -> exp x <= exp y.
Proof. by case=> [h|->]; [left; apply: exp_increasing | right]. Qed.
Lemma exp_quadratic B u v : u <= B -> v <= B ->
  exp v <= exp u + exp u * (v - u) + exp B / 2 * ((v - u) * (v - u)).
Proof.
move=> uB vB; apply: (quadratic_bound (f' := exp)) => c hc; first exact: d_exp.
have cB : c <= B by move: hc; rewrite /Rmax; case: Rle_dec => *; lra.
apply: (slope_bound (f' := exp)) => x hx; first exact: d_exp.
by apply: exp_le; move: hx; rewrite /Rmax; case: Rle_dec => *; lra.
Qed.
(** lower bound: |x| <= 1 makes the node loss non-negative *)
Lemma ln_mono x y : 0 < x -> x < y -> ln x <= ln y.
Proof. by move=> x0 xy; left; apply: ln_increasing. Qed.
Lemma lch_ge u : Rabs u <= lch u.
Proof.
case: (Rle_lt_dec 0 u) => h.
- rewrite Rabs_pos_eq //.
  rewrite -{1}(ln_exp u); apply: ln_mono; first exact: exp_pos.
  by have := exp_pos (- u); lra.
- rewrite Rabs_left //.
  rewrite -{1}(ln_exp (- u)); apply: ln_mono; first exact: exp_pos.
  by have := exp_pos u; lra.
Qed.
Lemma node_ge0 x u : Rabs x <= 1 -> 0 <= lch u - x * u.
Proof.
move=> h; have := lch_ge u; have : x * u <= Rabs u.
  apply: Rle_trans (Rle_abs _) _; rewrite Rabs_mult.
  by have := Rabs_pos u; have := Rabs_pos x; nra.
lra.
Qed.

(** a function with non-decreasing derivative lies above its tangents *)
Lemma tangent_bound (f f' : R -> R) (u v : R) :
  (forall c, derivable_pt_lim f c (f' c)) -> (forall c, 0 <= (f' c - f' u) * (c - u)) ->
  f u + f' u * (v - u) <= f v.
Proof.
move=> hd hm.
have := @quadratic_bound (fun x => - f x) (fun x => - f' x) 0 u v
  (fun c _ => derivable_pt_lim_opp _ _ _ (hd c)).
have hq c : Rmin u v <= c <= Rmax u v -> (- f' c - - f' u) * (c - u) <= 0 * ((c - u) * (c - u)).
  by move=> _; have := hm c; nra.
move=> /(_ hq); lra.
Qed.
Lemma mono_slope (f f' : R -> R) (u v : R) :
  (forall c, derivable_pt_lim f c (f' c)) -> (forall c, 0 <= f' c) -> 0 <= (f v - f u) * (v - u).
Proof.
move=> hd h0.
have := @slope_bound (fun x => - f x) (fun x => - f' x) 0 u v
  (fun c _ => derivable_pt_lim_opp _ _ _ (hd c)).
have hq c : Rmin u v <= c <= Rmax u v -> - f' c <= 0 by move=> _; have := h0 c; lra.
move=> /(_ hq); lra.
Qed.
Lemma lch_tangent u v : lch u + th u * (v - u) <= lch v.
Proof.
apply: tangent_bound => c; first exact: d_lch.
apply: (mono_slope (f' := fun x => 1 - th x * th x)) => x; first exact: d_th.
have := th_lt1 x; nra.
Qed.
Lemma exp_tangent u v : exp u + exp u * (v - u) <= exp v.
Proof.
apply: tangent_bound => c; first exact: d_exp.
apply: (mono_slope (f' := exp)) => x; first exact: d_exp.
left; exact: exp_pos.
Qed.
Lemma pow_small (q M : R) : 0 <= q < 1 -> exists k, q ^ k * M <= 1.
Proof.
move=> [q0 q1].
have hM : 0 < / (Rabs M + 1) by apply: Rinv_0_lt_compat; have := Rabs_pos M; lra.
have qa : Rabs q < 1 by rewrite Rabs_pos_eq.
have [k hk] := pow_lt_1_zero q qa _ hM.
exists k; have := hk k (le_n k).
have p0 : 0 <= q ^ k by apply: pow_le.
rewrite Rabs_pos_eq // => h.
have m0 : 0 < Rabs M + 1 by have := Rabs_pos M; lra.
have h2 : q ^ k * (Rabs M + 1) <= 1.
  have := Rmult_lt_compat_r _ _ _ m0 h; rewrite Rinv_l; lra.
have := Rle_abs M; nra.
Qed.
