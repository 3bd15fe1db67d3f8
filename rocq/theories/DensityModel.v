(** * DensityModel: the model of csmc.py with observed samplers. *)
From Coq Require Import Reals.
From mathcomp Require Import all_ssreflect all_algebra.
From Verif Require Import RInst Prog Resampling Spec Csmc CsmcInvariance DensitySpec.

Set Implicit Arguments.
Unset Strict Implicit.
Unset Printing Implicit Defensive.
Import GRing.Theory Num.Theory Order.TTheory.
Local Open Scope ring_scope.

Section Model.
Variables (X : Type) (n' : nat) (P Q : Type).
Local Notation n := n'.+1.
Local Notation pop := (pop X n').
Variable md : model X n' P Q.
(** Densities of the particles other than the reference, given its index. *)
Variables (D0 : 'I_n -> pop -> R) (Dt : P -> pop -> 'I_n -> pop -> R).

(** The model with every call of a sampler observed.  The parameters of a step are completed with
    the index of the reference and the particles of the step. *)
Definition observed_model (b0 : 'I_n) (y0 : pop) : model X n' (P * 'I_n * pop) Q :=
  Model (fun key => observed key (D0 b0 y0) y0) (M0_logpdf md) (Gamma0 md)
        (fun key xm p => observed key (Dt p.1.1 xm p.1.2 p.2) p.2)
        (fun xm xt p => Mt_logpdf md xm xt p.1.1) (Gammat md).

Definition obs_params (ps : seq P) (bs : seq 'I_n) (ys : seq pop) := zip (zip ps bs) ys.

(** What the statements require of these densities: times the density of the reference (as
    evaluated by the code), they are the same for every index of the reference. *)
Definition alike0 : Prop := forall y b b', 0 <= D0 b y /\
  D0 b y * exp (M0_logpdf md y b) = D0 b' y * exp (M0_logpdf md y b').

(** At each of the steps [ps]. *)
Definition aliket (ps : seq P) : Prop := forall p, List.In p ps -> forall xm y b b', 0 <= Dt p xm b y /\
  Dt p xm b y * exp (Mt_logpdf md xm y p b) = Dt p xm b' y * exp (Mt_logpdf md xm y p b').

(** csmc.kernel with ancestor tracing, run on these particles, keeps the joint density of the
    path, of its indices and of all particles and ancestors, [target] being the density of the path. *)
Definition csmc_keeps (rs : resampler n) (mv : mover n) (target : X -> seq X -> R) (key : key) (ps : seq P)
  (qs : seq Q) (y0 : pop) (ys : seq pop) : Prop := forall f : seq X -> seq 'I_n -> R,
  idx_sum (size qs) (fun b0 bs => target (y0 b0) (pick ys bs) *
    E (drop_weights (kernel rs mv (observed_model b0 y0) key (y0 b0) (pick ys bs) b0 bs
         (obs_params ps bs ys) qs false true)) (fun r => f r.1 r.2))
  = idx_sum (size qs) (fun b0 bs => target (y0 b0) (pick ys bs) *
      E (forward_pass rs (observed_model b0 y0) key (y0 b0) (pick ys bs) b0 bs (obs_params ps bs ys) qs true)
        (fun=> f (y0 b0 :: pick ys bs) (b0 :: bs))).

(** The same up to [eps], for test functions bounded by [c]. *)
Definition csmc_nearly_keeps (rs : resampler n) (mv : mover n) (target : X -> seq X -> R) (key : key) (ps : seq P)
  (qs : seq Q) (y0 : pop) (ys : seq pop) (c eps : R) : Prop := forall f : seq X -> seq 'I_n -> R,
  (forall xs bs, `|f xs bs| <= c) ->
  let joint g := idx_sum (size qs) (fun b0 bs => target (y0 b0) (pick ys bs) *
      E (forward_pass rs (observed_model b0 y0) key (y0 b0) (pick ys bs) b0 bs (obs_params ps bs ys) qs true)
        (fun=> g (y0 b0 :: pick ys bs) (b0 :: bs))) in
  `|idx_sum (size qs) (fun b0 bs => target (y0 b0) (pick ys bs) *
      E (drop_weights (kernel rs mv (observed_model b0 y0) key (y0 b0) (pick ys bs) b0 bs
         (obs_params ps bs ys) qs false true)) (fun r => f r.1 r.2))
    - joint f| <= joint (fun _ _ => eps).
End Model.
