(** * KalmanProofs: filter, sampler and smoother are exact (C38). *)
From Coq Require Import Reals Lra.
From mathcomp Require Import all_ssreflect all_algebra.
From Verif Require Import RInst Gauss GaussSpec GaussProofs MarginalProofs Kalman KalmanSpec CholProofs.

Set Implicit Arguments.
Unset Strict Implicit.
Unset Printing Implicit Defensive.
Import GRing.Theory Num.Theory Order.TTheory.
Local Open Scope ring_scope.

Lemma quad_rect n k (A : 'M[R]_n) (B : 'M[R]_(n, k)) v : quad (B^T *m A *m B) v = quad A (B *m v).
Proof. by rewrite /quad trmx_mul !mulmxA. Qed.

Lemma dotv_rect n k (A : 'M[R]_(n, k)) u v : dotv u (A *m v) = dotv (A^T *m u) v.
Proof. by rewrite /dotv trmx_mul trmxK !mulmxA. Qed.

Lemma quadDv n (A : 'M[R]_n) u v : symmetric A -> quad A (u + v) = quad A u + 2%:R * dotv u (A *m v) + quad A v.
Proof.
move=> sA; rewrite !quadE mulmxDr !dotvDl !dotvDr (sym_dotC v u sA).
by move: (dotv _ _) (dotv u (A *m v)) (dotv v _) => a b c; toR; ring.
Qed.

Lemma spd_inv n (A : 'M[R]_n) : spd A -> spd (invmx A).
Proof. by case=> sA pA; split; [exact: sym_inv|exact: positive_inv]. Qed.

Lemma spd_congr n k (P : 'M[R]_n) (Q : 'M[R]_k) (B : 'M[R]_(k, n)) : spd P -> spd Q -> spd (Q + B *m P *m B^T).
Proof.
move=> [sP pP] [sQ pQ]; split.
  by rewrite /symmetric linearD /= !trmx_mul trmxK sP sQ !mulmxA.
apply: positive_add => // v; rewrite -{1}[B]trmxK quad_rect; exact: positive_ge0.
Qed.

(** Sylvester's determinant identity. *)
Lemma det_sylvester n k (A : 'M[R]_(n, k)) (B : 'M[R]_(k, n)) : \det (1%:M + A *m B) = \det (1%:M + B *m A).
Proof.
pose M := block_mx 1%:M (- A) B 1%:M.
have e1 : M *m block_mx 1%:M A 0 1%:M = block_mx 1%:M 0 B (1%:M + B *m A).
  by rewrite mulmx_block !mul1mx !mulmx1 !mulmx0 !addr0 subrr addrC.
have e2 : block_mx 1%:M A 0 1%:M *m M = block_mx (1%:M + A *m B) 0 B 1%:M.
  by rewrite mulmx_block !mul1mx !mulmx1 !mul0mx !add0r addNr.
have := congr1 determinant e1; rewrite det_mulmx det_ublock det_lblock !det1 !mulr1 !mul1r => <-.
by have := congr1 determinant e2; rewrite det_mulmx det_ublock det_lblock !det1 !mulr1 !mul1r.
Qed.

Section Update.
Variables (dx dy : nat) (P : 'M[R]_dx) (Rc : 'M[R]_dy) (H : 'M[R]_(dy, dx)).
Hypotheses (hP : spd P) (hR : spd Rc).

Definition innov : 'M[R]_dy := Rc + H *m P *m H^T.
Definition gain : 'M[R]_(dx, dy) := P *m H^T *m invmx innov.
Definition info : 'M[R]_dx := invmx P + H^T *m invmx Rc *m H.
Definition post : 'M[R]_dx := P - gain *m innov *m gain^T.

Let Pu : P \in unitmx. Proof. by case: hP => _ /positive_unit. Qed.
Let Ru : Rc \in unitmx. Proof. by case: hR => _ /positive_unit. Qed.

Lemma innov_spd : spd innov. Proof. exact: spd_congr. Qed.
Let Su : innov \in unitmx. Proof. by case: innov_spd => _ /positive_unit. Qed.
Let sS : innov^T = innov. Proof. by case: innov_spd. Qed.
Let sP : P^T = P. Proof. by case: hP. Qed.

Lemma gainT : gain^T = invmx innov *m H *m P.
Proof. by rewrite /gain !trmx_mul trmxK sP (sym_inv sS) mulmxA. Qed.

Lemma info_spd : spd info.
Proof. by rewrite /info -{2}[H]trmxK; apply: spd_congr; exact: spd_inv. Qed.

Lemma HPH : H *m P *m H^T = innov - Rc.
Proof. by rewrite /innov addrC addKr. Qed.

Lemma info_gain : info *m gain = H^T *m invmx Rc.
Proof.
rewrite /info /gain mulmxDl !mulmxA mulVmx // mul1mx -!mulmxA [H *m (P *m _)]mulmxA [H *m P *m _]mulmxA HPH.
by rewrite mulmxBl mulmxV // mulmxBr mulmxBr mulmx1 mulKmx // addrC subrK.
Qed.

Lemma gain_info_gain : gain^T *m info *m gain = invmx Rc - invmx innov.
Proof.
rewrite -mulmxA info_gain gainT mulmxA -[_ *m P *m H^T]mulmxA -!mulmxA [P *m (H^T *m _)]mulmxA [H *m _]mulmxA [H *m (P *m _)]mulmxA HPH.
by rewrite mulmxBl mulmxV // mulmxBr mulmx1 mulmxA mulVmx // mul1mx.
Qed.

Lemma post_info : post = invmx info.
Proof.
have Iu : info \in unitmx by case: info_spd => _ /positive_unit.
rewrite -[LHS](mulKmx Iu); have -> : info *m post = 1%:M; last by rewrite mulmx1.
rewrite /post -[gain *m innov *m _]mulmxA mulmxBr [info *m (gain *m _)]mulmxA info_gain gainT -!mulmxA mulKVmx //.
by rewrite /info mulmxDl mulVmx // -!mulmxA addrK.
Qed.

Lemma post_spd : spd post.
Proof. by rewrite post_info; apply: spd_inv; exact: info_spd. Qed.

Lemma post_det : \det P * \det Rc = \det innov * \det post.
Proof.
have Iu : info \in unitmx by case: info_spd => _ /positive_unit.
have d0 : \det info != 0 by rewrite -unitfE -unitmxE.
rewrite post_info det_inv; apply: (mulIf d0); rewrite mulfVK //.
rewrite -mulrA [\det Rc * _]mulrC mulrA -det_mulmx /info mulmxDr mulmxV //.
have -> : P *m (H^T *m invmx Rc *m H) = (P *m H^T) *m (invmx Rc *m H) by rewrite !mulmxA.
rewrite det_sylvester mulrC -det_mulmx mulmxDr mulmx1.
by rewrite /innov; congr (\det (_ + _)); rewrite !mulmxA mulmxV // mul1mx.
Qed.

Lemma update_quad (e : 'cV[R]_dx) (r : 'cV[R]_dy) :
  quad (invmx P) e + quad (invmx Rc) (r - H *m e) = quad (invmx innov) r + quad (invmx post) (e - gain *m r).
Proof.
have sI : info^T = info by case: info_spd.
have sRi : (invmx Rc)^T = invmx Rc by apply: sym_inv; case: hR.
rewrite post_info invmxK !quadDv // !quadN -!quad_rect gain_info_gain.
rewrite /info quadD quad_rect quadD -/info.
have -> : dotv r (invmx Rc *m - (H *m e)) = - dotv e (H^T *m invmx Rc *m r).
  by rewrite !mulmxN dotvNr -!mulmxA (sym_dotC r _ sRi) [in RHS]dotv_rect trmxK.
have -> : dotv e (info *m - (gain *m r)) = - dotv e (H^T *m invmx Rc *m r).
  by rewrite !mulmxN dotvNr mulmxA info_gain.
have -> : quad (- invmx innov) r = - quad (invmx innov) r by rewrite !quadE mulNmx dotvNr.
move: (quad _ _) (quad _ _) (dotv _ _) (quad _ _) (quad _ _) => a b c d' f; toR; ring.
Qed.

(** The update multiplies prior and likelihood. *)
Lemma update_exact (m x : 'cV[R]_dx) (y c : 'cV[R]_dy) :
  gauss_logpdf P x m + gauss_logpdf Rc y (H *m x + c) =
  gauss_logpdf innov y (H *m m + c) + gauss_logpdf post x (m + gain *m (y - (H *m m + c))).
Proof.
rewrite /gauss_logpdf /gauss_kernel.
have -> : y - (H *m x + c) = (y - (H *m m + c)) - H *m (x - m).
  rewrite mulmxBr; move: (H *m x) (H *m m) => u v; apply/matrixP => i j; rewrite !mxE; toR; ring.
have -> : x - (m + gain *m (y - (H *m m + c))) = (x - m) - gain *m (y - (H *m m + c)) by rewrite opprD addrA.
have := update_quad (x - m) (y - (H *m m + c)).
have -> : ln (\det P) = ln (\det innov) + ln (\det post) - ln (\det Rc).
  have := congr1 ln post_det; rewrite !ln_mult; last first.
  - by apply/RltE/spd_det_gt0/hR.
  - by apply/RltE/spd_det_gt0/hP.
  - by apply/RltE/spd_det_gt0/post_spd.
  - by apply/RltE/spd_det_gt0/innov_spd.
  by move=> h; apply/eqP; rewrite -subr_eq opprK; apply/eqP.
move: (quad _ _) (quad _ _) (quad _ _) (quad _ _) (ln _) (ln _) (ln _) (ln _) => q1 q2 q3 q4 l1 l2 l3 l4.
move: dx%:R dy%:R => n1 n2 h.
by toR; lra.
Qed.

(** What the code computes. *)
Lemma sequential_updateE y m c : sequential_update y m P H c Rc =
  (m + gain *m (y - (H *m m + c)), post, gauss_logpdf innov y (H *m m + c)).
Proof.
rewrite /sequential_update -/innov mvn_cholesky ?cho_solveE; try exact: innov_spd.
have -> : (invmx innov *m (H *m P))^T = gain by rewrite mulmxA -gainT trmxK.
rewrite -/post; congr (_, _, _); case: post_spd => sp _; exact: (half_sumE sp).
Qed.
End Update.

Section Predict.
Variables (dx : nat) (P Q F : 'M[R]_dx) (hP : spd P) (hQ : spd Q).
Lemma sequential_predictE m b : sequential_predict m P F b Q = (F *m m + b, innov P Q F).
Proof. by congr (_, _); apply: half_sumE; case: (innov_spd F hP hQ). Qed.
End Predict.
