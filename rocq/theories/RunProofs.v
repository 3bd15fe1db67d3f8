(** * RunProofs: the averages recorded by the whole stochastic volatility experiment. *)
From Coq Require Import Reals Lra FunctionalExtensionality.
From mathcomp Require Import all_ssreflect all_algebra.
From Verif Require Import RInst Prog ProgTheory Resampling Spec CsmcProofs Drivers DriverSpec DriverProofs Experiments.
From Verif Require Import ErgodicSpec ErgodicFinal ErgodicSingleSpec ErgodicSingle ProperSpec ProperProofs Runs RunSpec.

Set Implicit Arguments.
Unset Strict Implicit.
Unset Printing Implicit Defensive.
Import GRing.Theory Num.Theory Order.TTheory.
Local Open Scope ring_scope.

(** ** Rates *)
Lemma uniform_rate (B : finType) (P : B -> R -> Prop) :
  (forall b e e', 0 < e' -> e' <= e -> P b e -> P b e') -> (forall b, exists2 e, 0 < e <= 1 & P b e) ->
  exists2 e, 0 < e <= 1 & forall b, P b e.
Proof.
move=> mono /fin_all_exists2 [r r01 rP]; exists (\big[Num.min/1]_b r b).
  apply/andP; split; last first.
    by elim/big_rec: _ => [|b x _ h]; [exact: lexx|rewrite le_minl h orbT].
  by elim/big_ind: _ => [|x y hx hy|b _]; [exact: ltr01|rewrite lt_minr hx hy|have /andP[] := r01 b].
move=> b; apply: (mono b (r b)) (rP b).
  by elim/big_ind: _ => [|x y hx hy|b' _]; [exact: ltr01|rewrite lt_minr hx hy|have /andP[] := r01 b'].
have : b \in index_enum B by exact: mem_index_enum.
elim: (index_enum B) => // b' l IH; rewrite in_cons big_cons le_minl => /orP[/eqP->|/IH->]; by rewrite ?lexx ?orbT.
Qed.

Lemma always_rate (A : Type) (P : A -> R -> Prop) (m : prog A) :
  (forall a e e', 0 < e' -> e' <= e -> P a e -> P a e') -> always (fun a => exists2 e, 0 < e <= 1 & P a e) m ->
  exists2 e, 0 < e <= 1 & always (fun a => P a e) m.
Proof.
move=> mono; elim: m => [a|k B p g IH] //= al.
apply: (@uniform_rate B (fun b e => always (fun a => P a e) (g b))) => [b e e' h1 h2|b]; last exact: IH.
by apply: always_imp => a; exact: mono.
Qed.

Lemma E_le_always A (m : prog A) f (B : R) : proper m -> always (fun a => f a <= B) m -> E m f <= B.
Proof.
elim: m => [a|k C p h IH] //= [p0 p1 pr] al.
rewrite -[B]mul1r -p1 mulr_suml; apply: ler_sum => c _; apply: ler_wpmul2l => //; exact: IH.
Qed.

(** ** Chains run one after the other *)
Section Chains.
Variables (I O : Type) (K : I -> prog O).
Local Notation chains := (scan (fun (_ : unit) i => do r <- K i; Ret (tt, r)) tt).
Fixpoint all_proper (ins : seq I) : Prop := if ins is i :: ins' then proper (K i) /\ all_proper ins' else True.

Lemma chains_proper ins : all_proper ins -> proper (chains ins).
Proof.
elim: ins => // i ins IH [h1 h2]; apply: proper_bind => [|[u o]]; first by apply: proper_bind.
by apply: proper_bind => [|[]] //; case: u; exact: IH.
Qed.

Lemma chains_nth (d : I) ins j (F : O -> R) : all_proper ins -> (j < size ins)%N ->
  E (chains ins) (fun out => nth 0 [seq F a | a <- out.2] j) = E (K (nth d ins j)) F.
Proof.
elim: ins j => // i ins IH j [h1 h2] lt; rewrite [LHS]E_bind E_bind.
case: j lt => [|j] lt /=.
  apply: eq_E => a; rewrite E_bind -[RHS](E_const (F a) (chains_proper h2)); apply: eq_E => -[u l] //.
rewrite -(IH j) // -[RHS](E_const _ h1); apply: eq_E => a; rewrite E_bind; apply: eq_E => -[u l] //.
Qed.

Lemma chains_always (P : I -> O -> Prop) ins : (forall i, always (P i) (K i)) ->
  always (fun out => All2 P ins out.2) (chains ins).
Proof.
move=> h; apply: (@scan_always _ _ _ _ P) => u i; rewrite always_bind; apply: always_imp (h i) => a //.
Qed.
End Chains.

Section All2.
Variables (A B : Type) (P : A -> B -> Prop).
Lemma All2_nth a0 b0 l l' i : All2 P l l' -> (i < size l)%N -> P (nth a0 l i) (nth b0 l' i).
Proof. by elim: l l' i => [|a l IH] [|b l'] [|i] //= [h1 h2] lt; [exact: h1|exact: IH]. Qed.
End All2.

(** ** The experiment around parts that keep states well formed *)
Section Experiment.
Variables (D S P A : Type) (get_data : key -> prog D) (init : key -> D -> prog S) (adapt : D -> key -> S -> prog (S * P)).
Variables (burnin : D -> P -> key -> S -> prog S) (sample : D -> P -> key -> S -> prog A).
Variables (ok : D -> S -> Prop) (okp : P -> Prop).
Hypotheses (dataP : forall key, proper (get_data key)) (initP : forall key d, proper (init key d))
  (adaptP : forall d key s, ok d s -> proper (adapt d key s))
  (burninP : forall d p key s, ok d s -> okp p -> proper (burnin d p key s))
  (sampleP : forall d p key s, ok d s -> okp p -> proper (sample d p key s))
  (init_ok : forall key d, always (ok d) (init key d))
  (adapt_ok : forall d key s, ok d s -> always (fun r => ok d r.1 /\ okp r.2) (adapt d key s))
  (burnin_ok : forall d p key s, ok d s -> okp p -> always (ok d) (burnin d p key s)).

(** Lines 126-156 of experiment.py. *)
Definition prefix (key : key) : prog (D * S * P) :=
  do data <- get_data (split key 0);
  do state <- init (split key 1) data;
  do r <- adapt data (split key 2) state;
  Ret (data, r.1, r.2).

Lemma prefix_proper key : proper (prefix key).
Proof.
apply: proper_bind => // d; apply: proper_bind_always => //; apply: always_imp (init_ok _ d) => s oks.
by apply: proper_bind => //; exact: adaptP.
Qed.

Lemma prefix_ok key : always (fun r : D * S * P => ok r.1.1 r.1.2 /\ okp r.2) (prefix key).
Proof.
rewrite /prefix always_bind; apply: always_true => d.
rewrite always_bind; apply: always_imp (init_ok _ d) => s oks.
by rewrite always_bind; apply: always_imp (adapt_ok _ oks) => -[s' p] [].
Qed.

(** Lines 158-183. *)
Definition rest (key : key) (M : nat) (d : D) (s : S) (p : P) : prog (unit * seq A) :=
  do (_, burnin_states) <- scan (fun (_ : unit) m => do s' <- burnin d p (split (split key 3) m) s; Ret (tt, s')) tt (iota 0 M);
  scan (fun (_ : unit) ms => do r <- sample d p (split (split key 4) ms.1) ms.2; Ret (tt, r)) tt (zip (iota 0 M) burnin_states).

Lemma oneE key M : sv_one_experiment get_data init adapt burnin sample key M
  = do r <- prefix key; rest key M r.1.1 r.1.2 r.2.
Proof.
rewrite /sv_one_experiment /prefix !bind_assoc; apply: eq_bind => d; rewrite !bind_assoc; apply: eq_bind => s.
by rewrite !bind_assoc; apply: eq_bind => -[s' p].
Qed.

Lemma burns_ok key M d s p : ok d s -> okp p ->
  proper (scan (fun (_ : unit) m => do s' <- burnin d p (split (split key 3) m) s; Ret (tt, s')) tt (iota 0 M))
  /\ always (fun ul => All2 (fun _ => ok d) (iota 0 M) ul.2)
    (scan (fun (_ : unit) m => do s' <- burnin d p (split (split key 3) m) s; Ret (tt, s')) tt (iota 0 M)).
Proof.
move=> oks gp; split.
  by apply: chains_proper; elim: (iota 0 M) => //= a l IH; split=> //; exact: burninP.
exact: (@chains_always _ _ (fun i => burnin d p (split (split key 3) i) s) (fun _ => ok d) (iota 0 M)
  (fun i => burnin_ok (split (split key 3) i) oks gp)).
Qed.

Lemma samples_proper key M d p (l : seq S) : All2 (fun _ => ok d) (iota 0 M) l -> okp p ->
  all_proper (fun ms : nat * S => sample d p (split (split key 4) ms.1) ms.2) (zip (iota 0 M) l).
Proof.
by move=> h gp; elim: (iota 0 M) l h => [|i is_ IH] [|s l] //= [h1 h2]; split; [exact: sampleP|exact: IH].
Qed.

Lemma one_proper key M : proper (sv_one_experiment get_data init adapt burnin sample key M).
Proof.
rewrite oneE; apply: proper_bind_always; first exact: prefix_proper.
apply: always_imp (prefix_ok key) => -[[d s] p] [/= oks gp]; have [h1 h2] := burns_ok key M oks gp.
apply: proper_bind_always => //; apply: always_imp h2 => -[u l] /= okl.
by apply: chains_proper; exact: samples_proper.
Qed.

Lemma run_proper key K M : proper (sv_experiment get_data init adapt burnin sample key K M).
Proof. by apply: proper_scan => u k; apply: proper_bind => //; exact: one_proper. Qed.

Section Bound.
Variables (good : D -> P -> Prop) (F : A -> R) (b : R).
Hypothesis sample_le : forall d p key s, ok d s -> okp p -> good d p -> E (sample d p key s) F <= b.

Lemma one_le key M j : (j < M)%N -> always (fun r => good r.1.1 r.2) (prefix key) ->
  E (sv_one_experiment get_data init adapt burnin sample key M) (fun out => nth 0 [seq F a | a <- out.2] j) <= b.
Proof.
move=> lt al; rewrite oneE E_bind; apply: E_le_always; first exact: prefix_proper.
have := always_and (prefix_ok key) al.
apply: always_imp => -[[d s] p] [[/= oks gp] gd]; rewrite /rest E_bind.
have [h1 h2] := burns_ok key M oks gp; apply: E_le_always => //.
apply: always_imp h2 => -[u l] /= okl; have sl := All2_size okl; rewrite size_iota in sl.
rewrite (@chains_nth _ _ (fun ms : nat * S => sample d p (split (split key 4) ms.1) ms.2) (0%N, s)) //.
- rewrite nth_zip ?size_iota //=; apply: sample_le => //.
  by apply: (All2_nth 0%N s okl); rewrite size_iota.
- exact: samples_proper.
by rewrite size_zip size_iota sl minnn.
Qed.

Lemma run_le key K M i j : (i < K)%N -> (j < M)%N ->
  (forall k, (k < K)%N -> always (fun r => good r.1.1 r.2) (prefix (split key k))) ->
  E (sv_experiment get_data init adapt burnin sample key K M)
    (fun out => nth 0 [seq F a | a <- nth [::] out.2 i] j) <= b.
Proof.
move=> li lj al.
pose one k := do r <- sv_one_experiment get_data init adapt burnin sample (split key k) M; Ret r.2.
have oneP ks : all_proper one ks.
  by elim: ks => //= k ks IH; split=> //; apply: proper_bind => //; exact: one_proper.
have -> : E (sv_experiment get_data init adapt burnin sample key K M) (fun out => nth 0 [seq F a | a <- nth [::] out.2 i] j)
    = E (scan (fun (_ : unit) k => do r <- one k; Ret (tt, r)) tt (iota 0 K))
        (fun out => nth 0 [seq nth 0 [seq F a | a <- l] j | l <- out.2] i).
  have -> : scan (fun (_ : unit) k => do r <- one k; Ret (tt, r)) tt (iota 0 K)
      = sv_experiment get_data init adapt burnin sample key K M.
    rewrite /sv_experiment; elim: (iota 0 K) => //= k ks IH; rewrite !bind_assoc; apply: eq_bind => r /=.
    by rewrite IH.
  apply: eq_E_always; have := @scan_size _ _ _ (fun (_ : unit) k => do r <- sv_one_experiment get_data init adapt burnin sample (split key k) M; Ret (tt, r.2)) (iota 0 K) tt.
  apply: always_imp => -[u l] /= sl.
  by rewrite (nth_map [::]) // sl size_iota.
rewrite (chains_nth 0%N (fun l => nth 0 [seq F a | a <- l] j) (oneP _)) ?size_iota // nth_iota // add0n E_bind.
by apply: one_le => //; exact: al.
Qed.
End Bound.
End Experiment.

(** ** One rate for all repetitions *)
Definition error_bound (bias : R -> R) (c e : R) (n : nat) : R :=
  4%:R * c ^+ 2 * (1 + 2%:R / e) / n%:R + 4%:R * c * (bias c / e).

Lemma bound_mono bias c e e' n : (forall c, 0 <= c -> 0 <= bias c) -> 0 <= c -> 0 < e' -> e' <= e ->
  error_bound bias c e n <= error_bound bias c e' n.
Proof.
move=> b0 c0 e0 le; have e1 : 0 < e by exact: lt_le_trans le.
have inv : e^-1 <= e'^-1 by rewrite lef_pinv.
apply: ler_add; last first.
  by apply: ler_wpmul2l; rewrite ?mulr_ge0 ?ler0n //; apply: ler_wpmul2l; rewrite ?b0.
apply: ler_wpmul2r; first by rewrite invr_ge0 ler0n.
apply: ler_wpmul2l; first by rewrite mulr_ge0 ?ler0n ?sqr_ge0.
by rewrite ler_add2l; apply: ler_wpmul2l; rewrite ?ler0n.
Qed.

Section Whole.
Variables (D S P D1 Z : Type) (label : D -> P -> D1) (get_data : key -> prog D) (init : key -> D -> prog S) (adapt : D -> key -> S -> prog (S * P)).
Variables (burnin : nat -> D -> P -> key -> S -> prog S) (sample : nat -> D -> P -> key -> S -> prog (D1 * seq Z)).
Variables (ok : D -> S -> Prop) (okp : P -> Prop) (mean : D1 -> (Z -> R) -> R) (bias : R -> R).
Hypotheses (dataP : forall key, proper (get_data key)) (initP : forall key d, proper (init key d))
  (adaptP : forall d key s, ok d s -> proper (adapt d key s))
  (burninP : forall b d p key s, ok d s -> okp p -> proper (burnin b d p key s))
  (sampleP : forall n d p key s, ok d s -> okp p -> proper (sample n d p key s))
  (init_ok : forall key d, always (ok d) (init key d))
  (adapt_ok : forall d key s, ok d s -> always (fun r => ok d r.1 /\ okp r.2) (adapt d key s))
  (burnin_ok : forall b d p key s, ok d s -> okp p -> always (ok d) (burnin b d p key s)).
Hypothesis rateP : forall d p, okp p -> exists2 e, 0 < e <= 1 & forall n key s (f : D1 -> Z -> R) c,
  ok d s -> (0 < n)%N -> (forall d z, `|f d z| <= c) ->
  E (sample n d p key s) (fun a => (average (f a.1) a.2 - mean a.1 (f a.1)) ^+ 2) <= error_bound bias c e n.
Hypothesis bias0 : forall c, 0 <= c -> 0 <= bias c.
Hypothesis sizeP : forall n d p key s, always (fun a => size a.2 = n) (sample n d p key s).
Local Notation run := (fun b n key K M => sv_experiment get_data init adapt (burnin b) (sample n) key K M).

Definition rated (d : D) (p : P) (e : R) : Prop := forall n key s (f : D1 -> Z -> R) c,
  ok d s -> (0 < n)%N -> (forall d z, `|f d z| <= c) ->
  E (sample n d p key s) (fun a => (average (f a.1) a.2 - mean a.1 (f a.1)) ^+ 2) <= error_bound bias c e n.

Lemma rated_mono (z0 : Z) d p e e' : 0 < e' -> e' <= e -> rated d p e -> rated d p e'.
Proof.
move=> e0 le h n key s f c oks n0 fc; apply: le_trans (h n key s f c oks n0 fc) _.
by apply: bound_mono => //; apply: le_trans (fc (label d p) z0).
Qed.

Lemma run_converge (z0 : Z) : recorded_converge mean bias run.
Proof.
move=> key K.
have [e e01 He] : exists2 e, 0 < e <= 1 & forall k : 'I_K, always (fun r => rated r.1.1 r.2 e) (prefix get_data init adapt (split key k)).
  apply: (@uniform_rate _ (fun (k : 'I_K) e => always (fun r => rated r.1.1 r.2 e) (prefix get_data init adapt (split key k)))) => [k e e' e0 le|k].
    by apply: always_imp => r; exact: (rated_mono z0).
  apply: always_rate => [r e e' e0 le|]; first exact: (rated_mono z0).
  by apply: always_imp (prefix_ok get_data init_ok adapt_ok (split key k)) => r [h1 h2]; have [e e01 he] := rateP r.1.1 h2; exists e.
exists e => // M b n i j f c li lj n0 fc.
apply: (@run_le _ _ _ _ get_data init adapt (burnin b) (sample n) ok okp dataP initP adaptP (burninP b) (sampleP n) init_ok
  adapt_ok (burnin_ok b) (fun d p => rated d p e)) => //.
- by move=> d p k s oks _ h; exact: h.
by move=> k lt; exact: (He (Ordinal lt)).
Qed.

Lemma run_full : full_records run.
Proof.
move=> b n key K M.
pose one k := do r <- sv_one_experiment get_data init adapt (burnin b) (sample n) (split key k) M; Ret r.2.
have oneA k : always (fun l => (size l == M) && all (fun a : D1 * seq Z => size a.2 == n) l) (one k).
  rewrite always_bind /sv_one_experiment !always_bind; apply: always_true => d.
  rewrite !always_bind; apply: always_true => s; rewrite !always_bind; apply: always_true => -[s' p].
  have := @scan_size _ _ _ (fun (_ : unit) m => do s <- burnin b d p (split (split (split key k) 3) m) s'; Ret (tt, s)) (iota 0 M) tt.
  rewrite !always_bind; apply: always_imp => -[u l] /= sl; rewrite size_iota in sl.
  have := @chains_always _ _ (fun ms : nat * S => sample n d p (split (split (split key k) 4) ms.1) ms.2)
    (fun _ a => size a.2 = n) (zip (iota 0 M) l) (fun _ => sizeP _ _ _ _ _).
  apply: always_imp => -[v o] /= h; have := All2_size h; rewrite size_zip size_iota sl minnn => <-; rewrite eqxx /=.
  by elim: (zip _ _) o h => [|a z IH] [|o os] //= [-> /IH->]; rewrite eqxx.
have -> : sv_experiment get_data init adapt (burnin b) (sample n) key K M
    = scan (fun (_ : unit) k => do r <- one k; Ret (tt, r)) tt (iota 0 K).
  rewrite /sv_experiment; elim: (iota 0 K) => //= k ks IH; rewrite !bind_assoc; apply: eq_bind => r /=.
  by rewrite IH.
have := @chains_always _ _ one (fun _ l => (size l == M) && all (fun a : D1 * seq Z => size a.2 == n) l) (iota 0 K) oneA.
apply: always_imp => -[u l] /= h; split; first by rewrite (All2_size h) size_iota.
by elim: (iota 0 K) l h => [|a z IH] [|o os] //= [-> /IH->].
Qed.

Lemma run_consistent (z0 : Z) : (forall c, bias c = 0) -> recorded_consistent mean run.
Proof.
move=> b00 key K h eps c h0 eps0; have [e e01 He] := run_converge z0 key K.
have [e0 _] := andP e01.
pose C : R := 4%:R * c ^+ 2 * (1 + 2%:R / e).
have he : 0 < h ^+ 2 * eps by rewrite mulr_gt0 ?exprn_gt0.
have C0 : 0 <= C.
  apply: mulr_ge0; first by rewrite mulr_ge0 ?ler0n ?sqr_ge0.
  by apply: addr_ge0; rewrite ?ler01 // divr_ge0 ?ler0n // ltW.
have [N HN] := above (C / (h ^+ 2 * eps)).
exists N.+1 => M b n i j f li lj nN fc.
have n0 : (0 < n)%N by apply: leq_trans nN.
have := He M b n i j f c li lj n0 fc; rewrite b00 mul0r mulr0 addr0 -/C => le.
rewrite -(ler_pmul2l (_ : 0 < h ^+ 2)) ?exprn_gt0 // -E_scale.
apply: le_trans (_ : C / n%:R <= _); last first.
  rewrite ler_pdivr_mulr ?ltr0n // mulrC -ler_pdivr_mulr //; apply: le_trans (ltW HN) _.
  by rewrite ler_nat; apply: ltnW.
apply: le_trans le; apply: E_le; first exact: run_proper (burninP b) (sampleP n) init_ok adapt_ok (burnin_ok b) _ _ _.
move=> out; rewrite /of_chain; set l := nth [::] out.2 i.
have [lt|ge] := ltnP j (size l); last by rewrite !nth_default ?size_map // mulr0.
case: l lt => // a0 l lt; rewrite !(nth_map a0) //; set a := nth a0 _ j; set x := average _ _ - _.
case hl : (h <= `|x|)%R; last by rewrite (_ : false%:R = 0) // mulr0 sqr_ge0.
rewrite (_ : true%:R = 1) // mulr1 -[x ^+ 2]ger0_norm ?sqr_ge0 // normrX.
by apply: ler_expn2r; rewrite ?nnegrE ?normr_ge0 // ltW.
Qed.
End Whole.

(** ** Views of the records *)
Lemma scan_view (I A B : Type) (K : I -> prog A) (g : A -> B) ins :
  scan (fun (_ : unit) i => do r <- (do a <- K i; Ret (g a)); Ret (tt, r)) tt ins
  = do out <- scan (fun (_ : unit) i => do r <- K i; Ret (tt, r)) tt ins; Ret (out.1, [seq g a | a <- out.2]).
Proof.
elim: ins => //= i ins IH; rewrite !bind_assoc; apply: eq_bind => a /=; rewrite IH !bind_assoc.
by apply: eq_bind => -[].
Qed.

Lemma viewedE (D S P A B : Type) (view : A -> B) (get_data : key -> prog D) (init : key -> D -> prog S)
    (adapt : D -> key -> S -> prog (S * P)) (burnin : nat -> D -> P -> key -> S -> prog S)
    (sample : nat -> D -> P -> key -> S -> prog A) :
  viewed view (fun b n key K M => sv_experiment get_data init adapt (burnin b) (sample n) key K M)
  = fun b n key K M => sv_experiment get_data init adapt (burnin b)
      (fun d p key s => do a <- sample n d p key s; Ret (view a)) key K M.
Proof.
apply: functional_extensionality => b; apply: functional_extensionality => n; apply: functional_extensionality => key.
apply: functional_extensionality => K; apply: functional_extensionality => M.
pose one k := do r <- sv_one_experiment get_data init adapt (burnin b) (sample n) (split key k) M; Ret r.2.
have repl A' (sa : D -> P -> Prog.key -> S -> prog A') : sv_experiment get_data init adapt (burnin b) sa key K M
    = scan (fun (_ : unit) k => do r <- (do r <- sv_one_experiment get_data init adapt (burnin b) sa (split key k) M; Ret r.2);
        Ret (tt, r)) tt (iota 0 K).
  by rewrite /sv_experiment; elim: (iota 0 K) => //= k ks IH; rewrite !bind_assoc; apply: eq_bind => r /=; rewrite IH.
rewrite /viewed !repl.
have -> : (fun (_ : unit) k => do r <- (do r <- sv_one_experiment get_data init adapt (burnin b)
     (fun d p key s => do a <- sample n d p key s; Ret (view a)) (split key k) M; Ret r.2); Ret (tt, r))
  = (fun (_ : unit) k => do r <- (do l <- one k; Ret [seq view a | a <- l]); Ret (tt, r)).
  apply: functional_extensionality => -[]; apply: functional_extensionality => k; congr (bind _ _).
  rewrite /one /sv_one_experiment !bind_assoc; apply: eq_bind => d; rewrite !bind_assoc; apply: eq_bind => s.
  rewrite !bind_assoc; apply: eq_bind => -[s' p]; rewrite !bind_assoc; apply: eq_bind => -[u l].
  rewrite (scan_view (fun ms : nat * S => sample n d p (split (split (split key k) 4) ms.1) ms.2) view) !bind_assoc.
  by apply: eq_bind => -[].
by rewrite (scan_view one (map view)).
Qed.

(** ** Invariants of the loops *)
Lemma scan_carry (C I O : Type) (Inv : C -> Prop) (body : C -> I -> prog (C * O)) :
  (forall c i, Inv c -> always (fun r => Inv r.1) (body c i)) ->
  forall ins c, Inv c -> always (fun r => Inv r.1) (scan body c ins).
Proof.
move=> h; elim=> [|i ins IH] c hc //=; rewrite always_bind; apply: always_imp (h c i hc) => -[c' o] /= hc'.
by rewrite always_bind; apply: always_imp (IH c' hc') => -[].
Qed.

Lemma adapt_good (S S' J : Type) (K : key -> S -> (J -> R) -> prog S') nxt acc stat cfg (ok : S -> Prop) (okd : R -> Prop) key s d n :
  (forall key s d, ok s -> (forall t, okd (d t)) -> proper (K key s d) /\ always (fun o => ok (nxt o)) (K key s d)) ->
  (forall i a x, okd x -> okd (adapt_delta cfg i a x)) -> ok s -> (forall t, okd (d t)) ->
  proper (adapt_routine K nxt acc stat cfg key s d n)
  /\ always (fun r => ok r.1 /\ forall t, okd (r.2 t)) (adapt_routine K nxt acc stat cfg key s d n).
Proof.
move=> KP aP oks dp; rewrite /adapt_routine.
pose Inv (c : S * (J -> R) * (J -> seq (option bool))) := ok c.1.1 /\ forall t, okd (c.1.2 t).
have keep c (i : nat * Prog.key) : Inv c -> always (fun r => Inv r.1) (adapt_body K nxt acc stat cfg c i).
  case: c i => [[s' d'] hh] [i k] /= [oks' dp']; rewrite /adapt_body always_bind.
  by have [_ al] := KP k s' d' oks' dp'; apply: always_imp al => o oko /=; split=> // t; exact: aP.
split.
  apply: proper_bind => [|[[[]]]] //; apply: (@proper_scan_inv _ _ _ Inv) => // c i ic; split; last exact: keep.
  by case: c i ic => [[s' d'] hh] [i k] [/= oks' dp']; apply: proper_bind => //; have [] := KP k s' d' oks' dp'.
by rewrite always_bind; apply: always_imp (@scan_carry _ _ _ Inv _ keep _ _ _) => [[[[s' d'] hh] u] //|].
Qed.

Lemma positive_steps cfg i a x : 0 < min_delta cfg <= max_delta cfg -> 0 < adapt_delta cfg i a x.
Proof. by case/andP => m0 mM; have /andP[le _] := @adapt_in cfg i a x mM; apply: lt_le_trans le. Qed.

Lemma every1 (A : Type) (l : seq A) : every 1 l = l.
Proof.
rewrite /every; have -> : [seq (1 %| i)%N | i <- iota 0 (size l)] = nseq (size l) true.
  by rewrite (@eq_map _ _ _ (fun=> true) dvd1n); elim: (size l) 0%N => //= a IH b; rewrite IH.
by apply: mask_true.
Qed.

Section ParticleRun.
Variables (D : Type) (X : finType) (n' m : nat) (get_data : key -> prog D) (start : key -> D -> prog (seq X)).
Variable kern : D -> ('I_m.+1 -> R) -> key -> X -> seq X -> 'I_n'.+1 -> seq 'I_n'.+1 -> prog (seq X * seq 'I_n'.+1).
Variables (stat : ('I_m.+1 -> option R) -> 'I_m.+1 -> option R) (cfg : config) (delta_init : R) (adaptation : nat).
Variables (target : D -> X -> seq X -> R) (bias : R -> R).
Variable okd : R -> Prop.
Hypotheses (dataP : forall key, proper (get_data key)) (startP : forall key d, proper (start key d))
  (start_size : forall key d, always (fun xs => size xs = m.+1) (start key d))
  (kernP : forall d delta key x0 xs b0 bs, (forall t, okd (delta t)) -> proper (kern d delta key x0 xs b0 bs))
  (setP : forall d delta, (forall t, okd (delta t)) -> settles m (target d) (kern d delta) bias)
  (bias0 : forall c, 0 <= c -> 0 <= bias c)
  (delta0 : okd delta_init) (adaptD : forall i a x, okd x -> okd (adapt_delta cfg i a x)).
Local Notation run := (sv_particle_run get_data start kern stat cfg delta_init adaptation).
Local Notation st := (seq X * ('I_m.+1 -> 'I_n'.+1))%type.
Local Notation ok := (fun (_ : D) (s : st) => size s.1 = m.+1).

Lemma indexed_proper d delta k (s : st) : (forall t, okd (delta t)) -> proper (indexed (kern d delta) k s).
Proof.
move=> dp; rewrite /indexed; apply: proper_bind => //; case: s => xs B /=.
by case: xs => // x0 xs; case: [seq B t | t <- _] => // b0 bs; exact: kernP.
Qed.

Lemma indexed_size d delta k s : (forall t, okd (delta t)) -> ok d s -> always (ok d) (indexed (kern d delta) k s).
Proof.
move=> dp; case: s => -[|x0 xs] // B /= [sx]; rewrite /indexed always_bind /=.
have := size_map B (enum 'I_m.+1); rewrite size_enum_ord; case: [seq B t | t <- _] => // b0 bs [sb] /=.
by have [h _] := setP d dp; apply: always_imp (h k x0 xs b0 bs sx sb) => r [].
Qed.

Lemma sampling_final d delta k s b : (forall t, okd (delta t)) -> ok d s ->
  always (fun out => if out is inr f then size f.1 = m.+1 else True) (mcmc_sampling (indexed (kern d delta)) k s b 0).
Proof.
move=> dp oks; rewrite /mcmc_sampling always_bind.
apply: always_imp (@scan_carry _ _ _ (ok d) _ _ _ _ oks) => [[f l] //|s' [i k'] oks'].
by rewrite /sampling_body always_bind; apply: always_imp (indexed_size k' dp oks').
Qed.

Lemma particle_facts :
  [/\ forall d key s, ok d s ->
        proper (adapt_routine (fun k s delta => indexed (kern d delta) k s) id (@changed (seq X) _ m.+1) stat cfg key s (fun=> delta_init) adaptation)
        /\ always (fun r => ok d r.1 /\ forall t, okd (r.2 t)) (adapt_routine (fun k s delta => indexed (kern d delta) k s) id (@changed (seq X) _ m.+1) stat cfg key s (fun=> delta_init) adaptation),
      forall d delta key (s : st) n k, (forall t, okd (delta t)) -> proper (mcmc_sampling (indexed (kern d delta)) key s n k)
    & forall d delta key (s : st) n, always (fun out => size (if out is inl r then r.1 else [::]) = n) (mcmc_sampling (indexed (kern d delta)) key s n 1)].
Proof.
split=> [d key s oks|d delta key s n k dp|d delta key s n].
- apply: (@adapt_good _ _ _ _ _ _ _ _ (ok d)) => // k s' delta oks' dp; split; [exact: indexed_proper|exact: indexed_size].
- by apply: mcmc_sampling_proper => k' s'; exact: indexed_proper.
rewrite /mcmc_sampling always_bind; apply: always_imp (scan_size _ _ _) => -[f l] /=.
by rewrite every1 !size_map size_iota.
Qed.

Local Notation record := (record D ('I_m.+1 -> R) (seq X) ('I_m.+1 -> bool)).
Local Notation sampled n d delta key s := (do out <- mcmc_sampling (indexed (kern d delta)) key s n 1;
  Ret (d, delta, if out is inl r then r else ([::], [::])) : prog record).

Lemma sampled_sizes n d delta key (s : st) :
  always (fun a : record => size a.2.1 = n /\ size a.2.2 = n) (sampled n d delta key s).
Proof.
rewrite /mcmc_sampling; apply/always_bind; apply/always_bind; apply: always_imp (scan_size _ _ _) => -[f l] /=.
by rewrite !every1 !size_map size_iota.
Qed.

(** Any view of the records. *)
Lemma particle_viewed (D1 Z : Type) (view : record -> D1 * seq Z) (label : D -> ('I_m.+1 -> R) -> D1)
    (mean : D1 -> (Z -> R) -> R) (z0 : Z) :
  (forall n a, size a.2.1 = n -> size a.2.2 = n -> size (view a).2 = n) ->
  (forall d (delta : 'I_m.+1 -> R), (forall t, okd (delta t)) -> exists2 e, 0 < e <= 1 &
     forall n key s (f : D1 -> Z -> R) c, ok d s -> (0 < n)%N -> (forall d z, `|f d z| <= c) ->
     E (sampled n d delta key s) (fun a => let v := view a in (average (f v.1) v.2 - mean v.1 (f v.1)) ^+ 2)
     <= error_bound bias c e n) ->
  sound_run mean bias (viewed view run).
Proof.
move=> vs rt; rewrite /sv_particle_run viewedE.
have [h12 h3 _] := particle_facts.
have h1 d key s oks := (h12 d key s oks).1; have h2 d key s oks := (h12 d key s oks).2.
have iP key d : proper (do xs <- start key d; Ret (path_init n' m.+1 xs)) by apply: proper_bind.
have iO key d : always (ok d) (do xs <- start key d; Ret (path_init n' m.+1 xs)) by rewrite always_bind; exact: start_size.
have bP b d (delta : 'I_m.+1 -> R) key (s : st) : ok d s -> (forall t, okd (delta t)) ->
    proper (do out <- mcmc_sampling (indexed (kern d delta)) key s b 0;
       Ret (path_init n' m.+1 (if out is inr final then final.1 else [::]))).
  by move=> _ dp; apply: proper_bind => //; exact: h3.
have bO b d (delta : 'I_m.+1 -> R) key s : ok d s -> (forall t, okd (delta t)) ->
   always (ok d) (do out <- mcmc_sampling (indexed (kern d delta)) key s b 0;
       Ret (path_init n' m.+1 (if out is inr final then final.1 else [::]))).
  move=> oks dp; have := @sampling_final d delta key s b dp oks.
  by rewrite always_bind /mcmc_sampling => /always_bind al; apply/always_bind; apply: always_imp al => -[].
have sP n d (delta : 'I_m.+1 -> R) key (s : st) : ok d s -> (forall t, okd (delta t)) ->
    proper (do a <- sampled n d delta key s; Ret (view a)).
  by move=> _ dp; apply: proper_bind => //; apply: proper_bind => //; exact: h3.
have sz n d (delta : 'I_m.+1 -> R) key (s : st) : always (fun a => size a.2 = n) (do a <- sampled n d delta key s; Ret (view a)).
  by apply/always_bind; apply: always_imp (sampled_sizes n d delta key s) => a [q1 q2]; exact: vs.
have rt' d (delta : 'I_m.+1 -> R) : (forall t, okd (delta t)) -> exists2 e, 0 < e <= 1 &
     forall n key s (f : D1 -> Z -> R) c, ok d s -> (0 < n)%N -> (forall d z, `|f d z| <= c) ->
     E (do a <- sampled n d delta key s; Ret (view a)) (fun a => (average (f a.1) a.2 - mean a.1 (f a.1)) ^+ 2)
     <= error_bound bias c e n.
  by move=> dp; have [e e01 he] := rt d delta dp; exists e => // n key s f c oks n0 fc; rewrite E_bind; exact: he.
split=> [|||b0].
- exact: (@run_converge _ _ _ _ _ label _ _ _ _ _ _ (fun delta => forall t, okd (delta t)) _ _ dataP iP h1 bP sP iO h2 bO rt' bias0 z0).
- by apply: (@run_full _ _ _ _ _ get_data _ _ _ _ sz).
- by move=> b n key K M; apply: (run_proper dataP iP h1 (bP b) (sP n) iO h2 (bO b)).
exact: (@run_consistent _ _ _ _ _ label _ _ _ _ _ _ (fun delta => forall t, okd (delta t)) _ _ dataP iP h1 bP sP iO h2 bO rt' bias0 z0).
Qed.

Lemma particle_rate d (delta : 'I_m.+1 -> R) : (forall t, okd (delta t)) -> exists2 e, 0 < e <= 1 &
  forall n key s (f : D -> seq X -> R) c, ok d s -> (0 < n)%N -> (forall d z, `|f d z| <= c) ->
  E (sampled n d delta key s) (fun a => let v := samples_of a in (average (f v.1) v.2 - path_mean m (target v.1) (f v.1)) ^+ 2)
  <= error_bound bias c e n.
Proof.
move=> dp; have [e e01 he] := loop_averages (setP d dp); exists e => // n key [[|x0 xs] B] f c // [sx] n0 fc.
have := he key x0 xs B n 1%N (f d) c sx isT n0 (fc d); rewrite addn0 divn1; apply: le_trans.
rewrite E_bind le_eqVlt; apply/orP; left; apply/eqP; rewrite mcmc_samplingE !E_bind; exact: eq_E.
Qed.

Theorem particle_run_converge : sound_run (fun d f => path_mean m (target d) f) bias (viewed (@samples_of _ _ _ _) run).
Proof. by apply: (particle_viewed (fun d _ => d) [::]) => //; exact: particle_rate. Qed.
End ParticleRun.

Section SingleRun.
Variables (D : Type) (X : finType) (C : Type) (get_data : key -> prog D) (start : key -> D -> prog X) (cached : D -> X -> C).
Variable kern : D -> R -> key -> X * C -> prog (X * C * bool).
Variables (cfg : config) (delta_init : R) (adaptation : nat) (target : D -> X -> R) (bias : R -> R) (x0 : X).
Hypotheses (dataP : forall key, proper (get_data key)) (startP : forall key d, proper (start key d))
  (kernP : forall d delta key s, 0 < delta -> proper (kern d delta key s))
  (cacheP : forall d delta key x, always (fun r => r.1.2 = cached d r.1.1) (kern d delta key (x, cached d x)))
  (setP : forall d delta, 0 < delta -> settles_position (cached d) (kern d delta) (target d) bias)
  (bias0 : forall c, 0 <= c -> 0 <= bias c)
  (delta0 : 0 < delta_init) (cfgP : 0 < min_delta cfg <= max_delta cfg).
Local Notation run := (sv_single_run get_data start cached kern cfg delta_init adaptation).
Local Notation ok := (fun (d : D) (s : X * C) => s.2 = cached d s.1).

Lemma single_keep d delta k s : ok d s -> always (fun r => ok d r.1) (kern d delta k s).
Proof. by case: s => x c /= ->; exact: cacheP. Qed.

Lemma single_facts :
  [/\ forall d key s, ok d s -> proper (tp_adaptation (fun k s delta => kern d delta k s) cfg key s delta_init adaptation)
        /\ always (fun r => ok d r.1 /\ 0 < r.2) (tp_adaptation (fun k s delta => kern d delta k s) cfg key s delta_init adaptation),
      forall d delta key s n k, 0 < delta -> proper (tp_sampling (kern d delta) key s n k)
    & forall d delta key s n, always (fun out => size (if out is inl r then r.1 else [::]) = n) (tp_sampling (kern d delta) key s n 1)].
Proof.
split=> [d key s oks|d delta key s n k dp|d delta key s n].
- have [h1 h2] := @adapt_good (X * C) (X * C * bool) unit (fun k s (dl : unit -> R) => kern d (dl tt) k s) fst (fun _ out _ => out.2) id cfg
    (ok d) (fun x => 0 < x) key s (fun=> delta_init) adaptation
    (fun k s' dl oks' dp => conj (kernP d k s' (dp tt)) (single_keep (dl tt) k oks'))
    (fun i a x _ => positive_steps i a x cfgP) oks (fun _ => delta0).
  split; first by apply: proper_bind => [|[]].
  by apply/always_bind; apply: always_imp h2 => -[s' dl] [h h'] /=; split=> //; exact: h'.
- by apply: tp_sampling_proper => k' s'; exact: kernP.
rewrite /tp_sampling; apply/always_bind; apply: always_imp (scan_size _ _ _) => -[f l] /=.
by rewrite every1 !size_map size_iota.
Qed.

Local Notation record := (record D R X bool).
Local Notation sampled n d delta key s := (do out <- tp_sampling (kern d delta) key s n 1;
  Ret (d, delta, if out is inl r then r else ([::], [::])) : prog record).

Lemma single_sizes n d delta key s :
  always (fun a : record => size a.2.1 = n /\ size a.2.2 = n) (sampled n d delta key s).
Proof.
rewrite /tp_sampling; apply/always_bind; apply/always_bind; apply: always_imp (scan_size _ _ _) => -[f l] /=.
by rewrite !every1 !size_map size_iota.
Qed.

Lemma single_viewed (D1 Z : Type) (view : record -> D1 * seq Z) (label : D -> R -> D1) (mean : D1 -> (Z -> R) -> R) (z0 : Z) :
  (forall n a, size a.2.1 = n -> size a.2.2 = n -> size (view a).2 = n) ->
  (forall d delta, 0 < delta -> exists2 e, 0 < e <= 1 &
     forall n key s (f : D1 -> Z -> R) c, ok d s -> (0 < n)%N -> (forall d z, `|f d z| <= c) ->
     E (sampled n d delta key s) (fun a => let v := view a in (average (f v.1) v.2 - mean v.1 (f v.1)) ^+ 2)
     <= error_bound bias c e n) ->
  sound_run mean bias (viewed view run).
Proof.
move=> vs rt; rewrite /sv_single_run viewedE.
have [h12 h3 _] := single_facts.
have h1 d key s oks := (h12 d key s oks).1; have h2 d key s oks := (h12 d key s oks).2.
have iP key d : proper (do x <- start key d; Ret (x, cached d x)) by apply: proper_bind.
have iO key d : always (ok d) (do x <- start key d; Ret (x, cached d x)) by apply/always_bind; exact: always_true.
have bP b d delta key (s : X * C) : ok d s -> 0 < delta -> proper (do out <- tp_sampling (kern d delta) key s b 0;
       let x := if out is inr r then r.1 else s.1 in Ret (x, cached d x)).
  by move=> _ dp; apply: proper_bind => //; exact: h3.
have bO b d delta key (s : X * C) : ok d s -> 0 < delta -> always (ok d) (do out <- tp_sampling (kern d delta) key s b 0;
       let x := if out is inr r then r.1 else s.1 in Ret (x, cached d x)).
  by move=> _ _; apply/always_bind; exact: always_true.
have sP n d delta key (s : X * C) : ok d s -> 0 < delta -> proper (do a <- sampled n d delta key s; Ret (view a)).
  by move=> _ dp; apply: proper_bind => //; apply: proper_bind => //; exact: h3.
have sz n d delta key (s : X * C) : always (fun a => size a.2 = n) (do a <- sampled n d delta key s; Ret (view a)).
  by apply/always_bind; apply: always_imp (single_sizes n d delta key s) => a [q1 q2]; exact: vs.
have rt' d delta : 0 < delta -> exists2 e, 0 < e <= 1 &
     forall n key s (f : D1 -> Z -> R) c, ok d s -> (0 < n)%N -> (forall d z, `|f d z| <= c) ->
     E (do a <- sampled n d delta key s; Ret (view a)) (fun a => (average (f a.1) a.2 - mean a.1 (f a.1)) ^+ 2)
     <= error_bound bias c e n.
  by move=> dp; have [e e01 he] := rt d delta dp; exists e => // n key s f c oks n0 fc; rewrite E_bind; exact: he.
split=> [|||b0].
- exact: (@run_converge _ _ _ _ _ label _ _ _ _ _ _ (fun delta => 0 < delta) _ _ dataP iP h1 bP sP iO h2 bO rt' bias0 z0).
- by apply: (@run_full _ _ _ _ _ get_data _ _ _ _ sz).
- by move=> b n key K M; apply: (run_proper dataP iP h1 (bP b) (sP n) iO h2 (bO b)).
exact: (@run_consistent _ _ _ _ _ label _ _ _ _ _ _ (fun delta => 0 < delta) _ _ dataP iP h1 bP sP iO h2 bO rt' bias0 z0).
Qed.

Lemma single_rate d delta : 0 < delta -> exists2 e, 0 < e <= 1 &
  forall n key s (f : D -> X -> R) c, ok d s -> (0 < n)%N -> (forall d z, `|f d z| <= c) ->
  E (sampled n d delta key s) (fun a => let v := samples_of a in (average (f v.1) v.2 - mean_under (target v.1) (f v.1)) ^+ 2)
  <= error_bound bias c e n.
Proof.
move=> dp; have [e e01 he] := tp_loop_averages (setP d dp); exists e => // n key [x c0] f c /= -> n0 fc.
have := he key x n 1%N (f d) c isT n0 (fc d); rewrite addn0 divn1; apply: le_trans.
rewrite E_bind le_eqVlt; apply/orP; left; apply/eqP; rewrite tp_samplingE !E_bind; exact: eq_E.
Qed.

Theorem single_run_converge : sound_run (fun d f => mean_under (target d) f) bias (viewed (@samples_of _ _ _ _) run).
Proof. by apply: (single_viewed (fun d _ => d) x0) => //; exact: single_rate. Qed.
End SingleRun.
