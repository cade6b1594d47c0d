(** A distribution function of the standard normal law exists (up to a constant). *)
From Coq Require Import Reals Lra.
From Coquelicot Require Import Coquelicot.
Local Open Scope R_scope.
Lemma normal_primitive : exists Phi : R -> R, forall z, derivable_pt_lim Phi z (exp (- (z * z / 2)) / sqrt (2 * PI)).
Proof.
set (g := fun z => exp (- (z * z / 2)) / sqrt (2 * PI)).
assert (s : 0 < sqrt (2 * PI)) by (apply sqrt_lt_R0; generalize PI_RGT_0; lra).
assert (c : forall z, continuous g z).
  intros z; apply (ex_derive_continuous g); unfold g; auto_derive; lra.
exists (fun z => RInt g 0 z); intros z; apply is_derive_Reals; change (exp (- (z * z / 2)) / sqrt (2 * PI)) with (g z).
apply (is_derive_RInt g _ 0); [|apply c].
apply filter_forall; intros y; apply (RInt_correct (V := R_CompleteNormedModule)), (ex_RInt_continuous (V := R_CompleteNormedModule)); intros; apply c.
Qed.
