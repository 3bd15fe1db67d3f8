(** * Csmc: model of /repo/gradient_csmc/csmc.py. *)
From Coq Require Import Reals.
From mathcomp Require Import all_ssreflect all_algebra.
From Verif Require Import RInst Prog Resampling.

Set Implicit Arguments.
Unset Strict Implicit.
Unset Printing Implicit Defensive.
Import GRing.Theory Num.Theory Order.TTheory.
Local Open Scope ring_scope.

Section Csmc.

(** [X]: states of one particle; [n = N + 1] particles ([N = n']);
    [P], [Q]: parameters of the proposal and of the potential at each step. *)
Variables (X : Type) (n' : nat) (P Q : Type).
Local Notation n := n'.+1.

(** A generation of particles and an array of ancestors. *)
Definition pop := {ffun 'I_n -> X}.
Definition anc := {ffun 'I_n -> 'I_n}.
Definition lwts := 'I_n -> R.

(** Callbacks of [kernel] (csmc.py:14-51).  The log-densities [M_0[1]], [M_t[1]] map
    arrays of particles to arrays, as in the code (tp_csmc.py passes functions that do
    not act particle by particle).  The potentials are given per particle; the
    code calls vectorised versions of them on arrays. *)
Record model := Model {
  M0_rvs : key -> prog pop;                       (* M_0[0](key, N + 1) *)
  M0_logpdf : pop -> lwts;                        (* M_0[1] *)
  Gamma0 : X -> R;                                (* Gamma_0 *)
  Mt_rvs : key -> pop -> P -> prog pop;           (* M_t[0] *)
  Mt_logpdf : pop -> pop -> P -> lwts;            (* M_t[1] *)
  Gammat : X -> X -> Q -> R;                      (* Gamma_t[0] *)
}.

Variable resampling_func : resampler n.
Variable ancestor_move_func : mover n.

(** Result of the forward pass: initial log-weights and particles, then the
    stacked outputs [(log_w_t, A_t, x_t)] for [t = 1 .. T - 1]
    (csmc.py:166-171; the insertion of the time-0 entry is left implicit). *)
Definition fwd_out := (lwts * pop * seq (lwts * anc * pop))%type.

(** ** Backward passes *)

Section Backward.
(** The argument [Gamma_func] of [backward_sampling_pass]. *)
Variable Gamma_func : X -> X -> Q -> R.

(** csmc.py:223-231.  [lw] is [log_w_t_m_1], [xm] is [xs_t_m_1]. *)
Definition bwd_weights (x_t : X) (xm : pop) (lw : lwts) (q : Q) : 'I_n -> R :=
  let g := fun l => Gamma_func (xm l) x_t q in
  let g' := fun l => g l - amax g in
  normalize (fun l => g' l + lw l).

Definition bwd_body (x_t : X) (i : key * pop * lwts * Q) : prog (X * (X * 'I_n)) :=
  let: (op_key, xs_t_m_1, log_w_t_m_1, q) := i in
  do B <- choice op_key (bwd_weights x_t xs_t_m_1 log_w_t_m_1 q);
  let x := xs_t_m_1 B in
  Ret (x, (x, B)).

(** [(keys[:-1], xs[-2::-1], log_ws[-2::-1], Gamma_params[::-1])], csmc.py:235-236. *)
Fixpoint bwd_inputs (key : key) (c : nat) (gens : seq (lwts * pop)) (qs : seq Q)
  : seq (seq nat * pop * lwts * Q) :=
  match gens, qs with
  | (lw, x) :: gens', q :: qs' => (split key c, x, lw, q) :: bwd_inputs key c.+1 gens' qs'
  | _, _ => [::]
  end.

(** The generations [(log_w_t, x_t)], [t = 0 .. T - 1], of a forward pass. *)
Definition gens (o : fwd_out) : seq (lwts * pop) :=
  let: (lw0, x0, outs) := o in (lw0, x0) :: [seq (s.1.1, s.2) | s <- outs].

(** [(log_ws[-1], xs[-1])]; the list of generations is never empty. *)
Definition last_gen (o : fwd_out) : lwts * pop :=
  let: (lw0, x0, outs) := o in last (lw0, x0) [seq (s.1.1, s.2) | s <- outs].

(** csmc.py:175-245.  [b_star_T] is [b_star[-1]].  In the unconditional case
    the code calls [barker_move] with [k = None] and discards the second
    output; here [k] is index 0, which the first output ignores as well. *)
Definition backward_sampling_pass (key : key) (qs : seq Q) (b_star_T : 'I_n) (o : fwd_out)
  (conditional : bool) : prog (seq X * seq 'I_n) :=
  let T := size (gens o) in
  let: (lw_T, x_Ts) := last_gen o in
  do (B_T, _) <- (if ~~ conditional then @barker_move n (split key T.-1) (normalize lw_T) ord0
                  else ancestor_move_func (split key T.-1) (normalize lw_T) b_star_T);
  let x_T := x_Ts B_T in
  do (_, outs) <- scan bwd_body x_T (bwd_inputs key 0 (behead (rev (gens o))) (rev qs));
  Ret (rev (x_T :: unzip1 outs), rev (B_T :: unzip2 outs)).

(** csmc.py:282-286. *)
Definition scan_body (B_t : 'I_n) (i : pop * anc) : prog ('I_n * (X * 'I_n)) :=
  let: (xs_t_m_1, A_t) := i in
  let B := A_t B_t in
  Ret (B, (xs_t_m_1 B, B)).

(** csmc.py:248-292. *)
Definition backward_scanning_pass (key : key) (b_star_T : 'I_n) (o : fwd_out)
  : prog (seq X * seq 'I_n) :=
  let: (lw_T, x_Ts) := last_gen o in
  do (B_T, _) <- ancestor_move_func key (normalize lw_T) b_star_T;
  let x_T := x_Ts B_T in
  let As := [seq s.1.2 | s <- o.2] in
  do (_, outs) <- scan scan_body B_T (zip (behead (rev (unzip2 (gens o)))) (rev As));
  Ret (rev (x_T :: unzip1 outs), rev (B_T :: unzip2 outs)).

End Backward.

(** ** Forward pass and kernel *)

Variable md : model.

(** csmc.py:132-133. *)
Definition log_w0 (x0 : pop) : lwts :=
  normalize_log (fun i => Gamma0 md (x0 i) - M0_logpdf md x0 i).

(** csmc.py:153-154; [xm] is the array of (resampled) ancestors. *)
Definition log_wt (xm xt : pop) (p : P) (q : Q) : lwts :=
  normalize_log (fun i => Gammat md (xm i) (xt i) q - Mt_logpdf md xm xt p i).

(** One entry of the [inputs] tuple of arrays, csmc.py:141,165. *)
Record inp := Inp {
  i_p : P; i_q : Q; i_bm1 : 'I_n; i_b : 'I_n; i_key : key; i_x : X }.

(** csmc.py:139-161. *)
Definition fwd_body (conditional : bool) (carry : ('I_n -> R) * pop) (i : inp)
  : prog ((('I_n -> R) * pop) * (lwts * anc * pop)) :=
  let: (w_t_m_1, x_t_m_1) := carry in
  let key_proposal_t := split (i_key i) 0 in
  let key_resampling_t := split (i_key i) 1 in
  do A_t <- resampling_func key_resampling_t w_t_m_1 (i_bm1 i) (i_b i) conditional;
  let x_t_m_1 := take_ax x_t_m_1 A_t in
  do x_t <- Mt_rvs md key_proposal_t x_t_m_1 (i_p i);
  let x_t := if conditional then upd x_t (i_b i) (i_x i) else x_t in
  let log_w_t := log_wt x_t_m_1 x_t (i_p i) (i_q i) in
  Ret ((fun l => exp (log_w_t l), x_t), (log_w_t, A_t, x_t)).

(** The arrays scanned over, csmc.py:163-165: [prop_params], [Gamma_params],
    [b_star[:-1]], [b_star[1:]], [keys_loop = split(key_loop, T - 1)] and
    [x_star[1:]], zipped as [jax.lax.scan] does.  The reference is given as its
    head ([x_star[0]], [b_star[0]]) and its tail. [c] counts from 0. *)
Fixpoint inputs (ps : seq P) (qs : seq Q) (b : 'I_n) (bs : seq 'I_n) (key_loop : key) (c : nat)
  (xs : seq X) : seq inp :=
  match ps, qs, bs, xs with
  | p :: ps', q :: qs', b' :: bs', x :: xs' =>
      Inp p q b b' (split key_loop c) x :: inputs ps' qs' b' bs' key_loop c.+1 xs'
  | _, _, _, _ => [::]
  end.

(** csmc.py:76-172.  [x_star], [b_star] are given as head and tail. *)
Definition forward_pass (key : key) (xstar0 : X) (xstar : seq X) (bstar0 : 'I_n) (bstar : seq 'I_n)
  (ps : seq P) (qs : seq Q) (conditional : bool) : prog fwd_out :=
  let key_init := split key 0 in let key_loop := split key 1 in
  do x0 <- M0_rvs md key_init;
  let x0 := if conditional then upd x0 bstar0 xstar0 else x0 in
  let lw0 := log_w0 x0 in
  do (_, outs) <- scan (fwd_body conditional) (fun l => exp (lw0 l), x0)
                       (inputs ps qs bstar0 bstar key_loop 0 xstar);
  Ret (lw0, x0, outs).

(** csmc.py:14-73.  Returns [(xs, Bs, log_ws)]. *)
Definition kernel (key : key) (xstar0 : X) (xstar : seq X) (bstar0 : 'I_n) (bstar : seq 'I_n)
  (ps : seq P) (qs : seq Q) (backward conditional : bool)
  : prog (seq X * seq 'I_n * seq lwts) :=
  do o <- forward_pass key xstar0 xstar bstar0 bstar ps qs conditional;
  let key_backward := split key 2 in
  let b_star_T := last bstar0 bstar in
  do (xs, Bs) <- (if backward then backward_sampling_pass (Gammat md) key_backward qs b_star_T o conditional
                  else backward_scanning_pass key_backward b_star_T o);
  Ret (xs, Bs, unzip1 (gens o)).

End Csmc.
