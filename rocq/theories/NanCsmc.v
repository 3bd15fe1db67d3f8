(** * NanCsmc: model of /repo/gradient_csmc/csmc.py when potentials and proposal densities may vanish.

    Csmc.v takes every log-density to be a real number.  Here log-densities may be
    [-inf], and the arithmetic that follows is that of IEEE numbers without rounding:
    [-inf - (-inf)] is NaN.  What [jax.random] and the functions of
    utils/resamplings.py and utils/common.py return when they are given weights that
    are not finite is not specified: a run that gets there has no result, [None]. *)
From Coq Require Import Reals.
From mathcomp Require Import all_ssreflect all_algebra.
From Verif Require Import RInst Prog Resampling.

Set Implicit Arguments.
Unset Strict Implicit.
Unset Printing Implicit Defensive.
Import GRing.Theory Num.Theory Order.TTheory.
Local Open Scope ring_scope.

(** ** Numbers *)

(** The values of a JAX scalar in csmc.py:132-134,153-155,224-228 (rounding is not modelled). *)
Inductive xnum := Fin of R | NInf | PInf | NaN.

(** [a + b], [-a], [a - b] (csmc.py:132,153,226,227, utils/resamplings.py:105). *)
Definition xadd (a b : xnum) : xnum :=
  match a, b with
  | Fin x, Fin y => Fin (x + y)
  | NaN, _ | _, NaN | NInf, PInf | PInf, NInf => NaN
  | NInf, _ | _, NInf => NInf
  | _, _ => PInf
  end.
Definition xopp (a : xnum) : xnum :=
  match a with Fin x => Fin (- x) | NInf => PInf | PInf => NInf | NaN => NaN end.
Definition xsub (a b : xnum) : xnum := xadd a (xopp b).

(** [jnp.maximum], which propagates NaN; [jnp.max] of a non-empty array (csmc.py:226). *)
Definition xmax (a b : xnum) : xnum :=
  match a, b with
  | NaN, _ | _, NaN => NaN
  | PInf, _ | _, PInf => PInf
  | NInf, c | c, NInf => c
  | Fin x, Fin y => Fin (Num.max x y)
  end.
Definition xamax (n' : nat) (w : 'I_n'.+1 -> xnum) : xnum := \big[xmax/w ord0]_i w i.

(** [jnp.exp] (csmc.py:134,155, utils/resamplings.py:108) and [jnp.log]. *)
Definition xexp (a : xnum) : xnum :=
  match a with Fin x => Fin (exp x) | NInf => Fin 0 | PInf => PInf | NaN => NaN end.
Definition xln (a : xnum) : xnum :=
  match a with
  | Fin x => if 0 < x then Fin (ln x) else if x == 0 then NInf else NaN
  | PInf => PInf
  | _ => NaN
  end.

(** [jax.scipy.special.logsumexp] (utils/resamplings.py:105); it is [-inf] when all
    entries are. *)
Definition xlogsumexp (n : nat) (lw : 'I_n -> xnum) : xnum := xln (\big[xadd/Fin 0]_i xexp (lw i)).

(** utils/resamplings.py:88-108, [normalize(log_weights, log_space=True)]. *)
Definition xnormalize_log (n : nat) (lw : 'I_n -> xnum) : 'I_n -> xnum :=
  fun i => xsub (lw i) (xlogsumexp lw).

(** utils/resamplings.py:88-108, [normalize(log_weights)]. *)
Definition xnormalize (n : nat) (lw : 'I_n -> xnum) : 'I_n -> xnum :=
  fun i => xexp (xnormalize_log lw i).

(** The weights, when all are numbers, as passed to the functions called in
    csmc.py:145,218,220,229,279. *)
Definition finite_weights (n : nat) (w : 'I_n -> xnum) : option ('I_n -> R) :=
  if [forall i, if w i is Fin _ then true else false]
  then Some (fun i => if w i is Fin x then x else 0) else None.

(** ** Runs without result *)

(** The rest of a run (csmc.py:66-73) that may be without result. *)
Definition obind (A B : Type) (m : prog (option A)) (g : A -> prog (option B)) : prog (option B) :=
  do o <- m; if o is Some a then g a else Ret None.

Notation "'odo' x <- m ; g" := (obind m (fun x => g))
  (at level 200, x pattern, m at level 100, g at level 200, right associativity).

(** A function that takes weights (csmc.py:145,218,220,229,279): unspecified when one
    is not a number. *)
Definition on_weights (n : nat) (A : Type) (w : 'I_n -> xnum) (f : ('I_n -> R) -> prog A) : prog (option A) :=
  if finite_weights w is Some v then do a <- f v; Ret (Some a) else Ret None.

(** [jax.lax.scan] (csmc.py:166,239,289) of a body that may be without result. *)
Fixpoint oscan (C I O : Type) (body : C -> I -> prog (option (C * O))) (c : C) (ins : seq I)
  : prog (option (C * seq O)) :=
  match ins with
  | [::] => Ret (Some (c, [::]))
  | i :: ins' =>
      odo (c', o) <- body c i;
      odo (c'', os) <- oscan body c' ins';
      Ret (Some (c'', o :: os))
  end.

(** ** csmc.py *)
Section Csmc.
Variables (X : Type) (n' : nat) (P Q : Type).
Local Notation n := n'.+1.
Local Notation pop := {ffun 'I_n -> X}.
Local Notation anc := {ffun 'I_n -> 'I_n}.
Definition xlwts := 'I_n -> xnum.

(** Callbacks of [kernel] (csmc.py:14-51), as in Csmc.v. *)
Record xmodel := XModel {
  xM0_rvs : key -> prog pop;
  xM0_logpdf : pop -> xlwts;
  xGamma0 : X -> xnum;
  xMt_rvs : key -> pop -> P -> prog pop;
  xMt_logpdf : pop -> pop -> P -> xlwts;
  xGammat : X -> X -> Q -> xnum;
}.

(** Log-weights, ancestors and particles of the forward pass (csmc.py:166-171). *)
Definition xfwd_out := (xlwts * pop * seq (xlwts * anc * pop))%type.

Variable resampling_func : resampler n.
Variable ancestor_move_func : mover n.

(** ** Backward passes: [Gamma_func] is their argument (csmc.py:175,248) *)
Section Backward.
Variable Gamma_func : X -> X -> Q -> xnum.

(** csmc.py:224-228. *)
Definition xbwd_weights (x_t : X) (xm : pop) (lw : xlwts) (q : Q) : 'I_n -> xnum :=
  let g := fun l => Gamma_func (xm l) x_t q in
  let g' := fun l => xsub (g l) (xamax g) in
  xnormalize (fun l => xadd (g' l) (lw l)).

(** csmc.py:223-231. *)
Definition xbwd_body (x_t : X) (i : key * pop * xlwts * Q) : prog (option (X * (X * 'I_n))) :=
  let: (op_key, xs_t_m_1, log_w_t_m_1, q) := i in
  odo B <- on_weights (xbwd_weights x_t xs_t_m_1 log_w_t_m_1 q) (fun w => choice op_key w);
  let x := xs_t_m_1 B in
  Ret (Some (x, (x, B))).

(** csmc.py:235-236. *)
Fixpoint xbwd_inputs (key : key) (c : nat) (gens : seq (xlwts * pop)) (qs : seq Q)
  : seq (seq nat * pop * xlwts * Q) :=
  match gens, qs with
  | (lw, x) :: gens', q :: qs' => (split key c, x, lw, q) :: xbwd_inputs key c.+1 gens' qs'
  | _, _ => [::]
  end.

(** The generations of a forward pass, and the last one. *)
Definition xgens (o : xfwd_out) : seq (xlwts * pop) :=
  let: (lw0, x0, outs) := o in (lw0, x0) :: [seq (s.1.1, s.2) | s <- outs].
Definition xlast_gen (o : xfwd_out) : xlwts * pop :=
  let: (lw0, x0, outs) := o in last (lw0, x0) [seq (s.1.1, s.2) | s <- outs].

(** csmc.py:175-245. *)
Definition xbackward_sampling_pass (key : key) (qs : seq Q) (b_star_T : 'I_n) (o : xfwd_out)
  (conditional : bool) : prog (option (seq X * seq 'I_n)) :=
  let T := size (xgens o) in
  let: (lw_T, x_Ts) := xlast_gen o in
  odo (B_T, _) <- on_weights (xnormalize lw_T) (fun w =>
      if ~~ conditional then @barker_move n (split key T.-1) w ord0
      else ancestor_move_func (split key T.-1) w b_star_T);
  let x_T := x_Ts B_T in
  odo (_, outs) <- oscan xbwd_body x_T (xbwd_inputs key 0 (behead (rev (xgens o))) (rev qs));
  Ret (Some (rev (x_T :: unzip1 outs), rev (B_T :: unzip2 outs))).

(** csmc.py:282-286. *)
Definition xscan_body (B_t : 'I_n) (i : pop * anc) : prog (option ('I_n * (X * 'I_n))) :=
  let: (xs_t_m_1, A_t) := i in
  let B := A_t B_t in
  Ret (Some (B, (xs_t_m_1 B, B))).

(** csmc.py:248-292. *)
Definition xbackward_scanning_pass (key : key) (b_star_T : 'I_n) (o : xfwd_out)
  : prog (option (seq X * seq 'I_n)) :=
  let: (lw_T, x_Ts) := xlast_gen o in
  odo (B_T, _) <- on_weights (xnormalize lw_T) (fun w => ancestor_move_func key w b_star_T);
  let x_T := x_Ts B_T in
  let As := [seq s.1.2 | s <- o.2] in
  odo (_, outs) <- oscan xscan_body B_T (zip (behead (rev (unzip2 (xgens o)))) (rev As));
  Ret (Some (rev (x_T :: unzip1 outs), rev (B_T :: unzip2 outs))).

End Backward.

(** ** Forward pass and kernel *)
Variable md : xmodel.

(** csmc.py:132-133. *)
Definition xlog_w0 (x0 : pop) : xlwts :=
  xnormalize_log (fun i => xsub (xGamma0 md (x0 i)) (xM0_logpdf md x0 i)).

(** csmc.py:153-154. *)
Definition xlog_wt (xm xt : pop) (p : P) (q : Q) : xlwts :=
  xnormalize_log (fun i => xsub (xGammat md (xm i) (xt i) q) (xMt_logpdf md xm xt p i)).

(** One entry of the arrays scanned over, csmc.py:141,165. *)
Record xinp := XInp {
  xi_p : P; xi_q : Q; xi_bm1 : 'I_n; xi_b : 'I_n; xi_key : key; xi_x : X }.

(** csmc.py:139-161. *)
Definition xfwd_body (conditional : bool) (carry : ('I_n -> xnum) * pop) (i : xinp)
  : prog (option ((('I_n -> xnum) * pop) * (xlwts * anc * pop))) :=
  let: (w_t_m_1, x_t_m_1) := carry in
  let key_proposal_t := split (xi_key i) 0 in
  let key_resampling_t := split (xi_key i) 1 in
  odo A_t <- on_weights w_t_m_1 (fun w => resampling_func key_resampling_t w (xi_bm1 i) (xi_b i) conditional);
  let x_t_m_1 := take_ax x_t_m_1 A_t in
  do x_t <- xMt_rvs md key_proposal_t x_t_m_1 (xi_p i);
  let x_t := if conditional then upd x_t (xi_b i) (xi_x i) else x_t in
  let log_w_t := xlog_wt x_t_m_1 x_t (xi_p i) (xi_q i) in
  Ret (Some ((fun l => xexp (log_w_t l), x_t), (log_w_t, A_t, x_t))).

(** The arrays scanned over, csmc.py:163-165, zipped. *)
Fixpoint xinputs (ps : seq P) (qs : seq Q) (b : 'I_n) (bs : seq 'I_n) (key_loop : key) (c : nat)
  (xs : seq X) : seq xinp :=
  match ps, qs, bs, xs with
  | p :: ps', q :: qs', b' :: bs', x :: xs' =>
      XInp p q b b' (split key_loop c) x :: xinputs ps' qs' b' bs' key_loop c.+1 xs'
  | _, _, _, _ => [::]
  end.

(** csmc.py:76-172. *)
Definition xforward_pass (key : key) (xstar0 : X) (xstar : seq X) (bstar0 : 'I_n) (bstar : seq 'I_n)
  (ps : seq P) (qs : seq Q) (conditional : bool) : prog (option xfwd_out) :=
  let key_init := split key 0 in let key_loop := split key 1 in
  do x0 <- xM0_rvs md key_init;
  let x0 := if conditional then upd x0 bstar0 xstar0 else x0 in
  let lw0 := xlog_w0 x0 in
  odo (_, outs) <- oscan (xfwd_body conditional) (fun l => xexp (lw0 l), x0)
                         (xinputs ps qs bstar0 bstar key_loop 0 xstar);
  Ret (Some (lw0, x0, outs)).

(** csmc.py:14-73. *)
Definition xkernel (key : key) (xstar0 : X) (xstar : seq X) (bstar0 : 'I_n) (bstar : seq 'I_n)
  (ps : seq P) (qs : seq Q) (backward conditional : bool)
  : prog (option (seq X * seq 'I_n * seq xlwts)) :=
  odo o <- xforward_pass key xstar0 xstar bstar0 bstar ps qs conditional;
  let key_backward := split key 2 in
  let b_star_T := last bstar0 bstar in
  odo (xs, Bs) <- (if backward then xbackward_sampling_pass (xGammat md) key_backward qs b_star_T o conditional
                   else xbackward_scanning_pass key_backward b_star_T o);
  Ret (Some (xs, Bs, unzip1 (xgens o))).

End Csmc.
