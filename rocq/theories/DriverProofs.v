(** * DriverProofs: the loops around the kernels (C34-C37). *)
From Coq Require Import Reals Lra FunctionalExtensionality.
From mathcomp Require Import all_ssreflect all_algebra.
From Verif Require Import RInst Prog ProgTheory KeyProofs SingleSpec Drivers DriverSpec.

Set Implicit Arguments.
Unset Strict Implicit.
Unset Printing Implicit Defensive.
Import GRing.Theory Num.Theory Order.TTheory.
Local Open Scope ring_scope.

(** ** Programs *)
Lemma always_runs A (P : A -> Prop) (m : prog A) : (forall a, outcome m a -> P a) -> always P m.
Proof.
elim: m => [a|k B p g IH] H /=; first by apply: H; exists [::].
by move=> b; apply: IH => a [ks ra]; apply: H; exists (k :: ks), b, ks.
Qed.

Lemma bind_assoc A C D (m : prog A) (g : A -> prog C) (h : C -> prog D) :
  bind (bind m g) h = bind m (fun a => bind (g a) h).
Proof. by elim: m => [a|k B p f IH] //=; congr Draw; apply: functional_extensionality. Qed.

Lemma bind_ret A (m : prog A) : bind m (fun a => Ret a) = m.
Proof. by elim: m => [a|k B p f IH] //=; congr Draw; apply: functional_extensionality. Qed.

Lemma eq_bind A C (m : prog A) (g h : A -> prog C) : g =1 h -> bind m g = bind m h.
Proof. by move=> e; congr bind; apply: functional_extensionality. Qed.

Lemma runs_scan C I O (body : C -> I -> prog (C * O)) ins c ks r (i0 : I) : runs (scan body c ins) ks r ->
  exists Cs : nat -> C, [/\ Cs 0%N = c, r.1 = Cs (size ins) & forall i, (i < size ins)%N ->
    exists ks' o, runs (body (Cs i) (nth i0 ins i)) ks' (Cs i.+1, o)].
Proof.
elim: ins c ks r => [|x ins IH] c ks r /=; first by move=> [_ ->]; exists (fun=> c).
move/runs_bind => [ks1 [ks2 [[c' o] [_ r1 /runs_bind [ks3 [ks4 [[c'' os] [_ r2 /= [_ ->]]]]]]]]].
have [Cs [C0 Cn H]] := IH _ _ _ r2.
exists (fun i => if i is j.+1 then Cs j else c); split=> // -[|i] /= lt; last exact: H.
by rewrite C0; exists ks1, o.
Qed.

(** ** Histories *)
Lemma push_take a w l : (w <= size l)%N -> push_history a (take w l) = take w (Some a :: l).
Proof.
case: w l => [|w] [|x l] //= s; congr (_ :: _).
elim: l x w s => [|y l IH] x [|w] //= s; congr (_ :: _); exact: IH.
Qed.

Lemma pmap_take (A : Type) (l : seq A) w m : pmap id (take w (map Some l ++ nseq m None)) = take w l.
Proof.
elim: l w => [|x l IH] w /=; last by case: w => [|w] //=; rewrite IH.
by elim: m w => [|m IHm] [|w] //=.
Qed.

Definition hist (w i : nat) (a : nat -> bool) : seq (option bool) :=
  take w (map Some (rev (mkseq a i)) ++ nseq w None).

Lemma hist0 w a : hist w 0 a = nseq w None.
Proof. by rewrite /hist /= take_oversize // size_nseq. Qed.

Lemma hist_push w i a : push_history (a i) (hist w i a) = hist w i.+1 a.
Proof.
rewrite /hist push_take; first by rewrite /mkseq -addn1 iotaD map_cat rev_cat.
by rewrite size_cat size_nseq leq_addl.
Qed.

Lemma nanmean_hist w i a : (0 < w)%N ->
  nanmean (fun b : bool => b%:R) (hist w i.+1 a) = Some (recent_rate w i a).
Proof.
move=> w0; rewrite /nanmean /hist pmap_take.
have sz : size (take w (rev (mkseq a i.+1))) = minn w i.+1.
  by rewrite size_take_min size_rev size_mkseq.
have : take w (rev (mkseq a i.+1)) != [::] by rewrite -size_eq0 sz -lt0n leq_min w0.
have -> : (\sum_(b <- take w (rev (mkseq a i.+1))) b%:R : R) = \sum_(i.+1 - minn w i.+1 <= j < i.+1) (a j)%:R.
  rewrite take_rev size_mkseq (perm_big (drop (i.+1 - w) (mkseq a i.+1))) /=; last by rewrite perm_rev.
  have -> : (i.+1 - minn w i.+1 = i.+1 - w)%N.
    by have [le|lt] := leqP w i.+1; rewrite ?subnn //; apply/esym/eqP; rewrite subn_eq0 ltnW.
  rewrite /mkseq -map_drop big_map drop_iota add0n; by rewrite /index_iota.
rewrite sz; case: (take _ _) => [|x s] // _; rewrite /recent_rate; by [].
Qed.

(** ** Adaptation *)
Section Adapt.
Variables (S S' J : Type) (kernel : key -> S -> (J -> R) -> prog S') (next : S' -> S)
  (accepted : S -> S' -> J -> bool) (stat : (J -> option R) -> J -> option R) (cfg : config).
Hypothesis stat_ext : forall v v', v =1 v' -> stat v =1 stat v'.

Lemma choice_upto (Y : Type) (y0 : Y) n (P : nat -> Y -> Prop) :
  (forall i, (i < n)%N -> exists y, P i y) -> exists f, forall i, (i < n)%N -> P i (f i).
Proof.
elim: n => [|n IH] H; first by exists (fun=> y0).
have [i lt|f Hf] := IH; first by apply: H; exact: ltnW.
have [y Py] := H n (ltnSn n).
exists (fun i => if i == n then y else f i) => i; rewrite ltnS leq_eqVlt.
by case: eqP => [-> _|_ /= lt] //; exact: Hf.
Qed.

Lemma adapt_trace key init d0 n r :
  outcome (adapt_routine kernel next accepted stat cfg key init d0 n) r ->
  exists (St : nat -> S) (D : nat -> J -> R) (A : nat -> J -> bool),
  [/\ St 0%N = init, D 0%N = d0, r = (St n, D n) & forall i, (i < n)%N ->
    (exists out, [/\ outcome (kernel (split key i) (St i) (D i)) out, St i.+1 = next out
                   & A i = accepted (St i) out]) /\
    forall t, D i.+1 t = adapt_delta cfg i
      (stat (fun t => nanmean (fun b : bool => b%:R) (hist (window_size cfg) i.+1 (A^~ t))) t) (D i t)].
Proof.
case=> ks /runs_bind [ks1 [ks2 [[[[s d] h] os] [_ /(runs_scan (0%N, [::])) [Cs [C0 Cn H]] /= [_ ->]]]]].
rewrite size_map size_iota in Cn H.
pose St i := (Cs i).1.1; pose D i := (Cs i).1.2.
have H' i : (i < n)%N -> exists A : J -> bool, exists out, [/\ outcome (kernel (split key i) (St i) (D i)) out, St i.+1 = next out,
   A = accepted (St i) out, (Cs i.+1).2 = (fun t => push_history (A t) ((Cs i).2 t))
  & forall t, D i.+1 t = adapt_delta cfg i (stat (fun t => nanmean (fun b : bool => b%:R) ((Cs i.+1).2 t)) t) (D i t)].
  move=> lt; have [ks' [o]] := H i lt; rewrite (nth_map 0%N) ?size_iota // nth_iota // add0n.
  rewrite /St /D; case: (Cs i) => [[s1 d1] h1] /= /runs_bind [ks3 [ks4 [out [_ ro /= [_ [e _]]]]]].
  exists (accepted s1 out), out; split=> //; first by exists ks3.
  - by rewrite e.
  - by rewrite e.
  - by move=> t; rewrite e.
have [A HA] := choice_upto (fun=> false) H'.
exists St, D, A; split; rewrite /St /D ?C0 // -?Cn // => i lt.
have [out [o1 o2 o3 o4 o5]] := HA i lt; split=> [|t]; first by exists out.
apply: etrans (o5 t) _; congr (adapt_delta _ _ _ _); apply: stat_ext => {}t; congr (nanmean _ _).
have Hh j : (j <= n)%N -> forall t, (Cs j).2 t = hist (window_size cfg) j (A^~ t).
  elim: j => [|j IH] le u; first by rewrite C0 hist0.
  have [? [_ _ _ e _]] := HA j le; rewrite e IH ?(ltnW le) // hist_push //.
exact: Hh.
Qed.

Lemma jclip_in x lo hi : lo <= hi -> lo <= jclip x lo hi <= hi.
Proof. by move=> h; rewrite /jclip le_minr le_maxr lexx orbT h le_minl lexx orbT. Qed.

Lemma jclip_id x lo hi : lo <= x <= hi -> jclip x lo hi = x.
Proof. by move=> /andP[h1 h2]; rewrite /jclip max_l // min_l. Qed.

Lemma adapt_in i a d : min_delta cfg <= max_delta cfg -> min_delta cfg <= adapt_delta cfg i a d <= max_delta cfg.
Proof. by move=> h; exact: jclip_in. Qed.

Lemma rate_ok i : is_rate (min_rate cfg) (rate cfg) i (Num.max (min_rate cfg) (rate cfg / sqrt i.+1%:R)).
Proof.
have s0 : 0 < sqrt i.+1%:R by apply/RltE; apply: sqrt_lt_R0; apply/RltE; rewrite ltr0Sn.
rewrite /is_rate; have [h|h] := leP (rate cfg / sqrt i.+1%:R) (min_rate cfg).
  by split; [|rewrite -ler_pdivr_mulr|left].
by rewrite divfK ?gt_eqF //; split=> //; [exact: ltW|right].
Qed.

Lemma adapt_adapts i a d : 0 < target_acceptance cfg -> 0 < min_rate cfg -> 0 < min_delta cfg -> min_delta cfg <= max_delta cfg ->
  exists2 r, is_rate (min_rate cfg) (rate cfg) i r &
  adapts (target_acceptance cfg) (min_delta cfg) (max_delta cfg) (window_size cfg) r i a d (adapt_delta cfg i (Some a) d).
Proof.
move=> ta0 mr0 lo0 lohi; exists (Num.max (min_rate cfg) (rate cfg / sqrt i.+1%:R)); first exact: rate_ok.
rewrite /adapt_delta.
have r0 : 0 < Num.max (min_rate cfg) (rate cfg / sqrt i.+1%:R) by rewrite lt_maxr mr0.
move: (Num.max _ _) r0 => r r0; move: (target_acceptance cfg) ta0 => ta ta0.
move: (min_delta cfg) (max_delta cfg) lo0 lohi => lo hi lo0 lohi.
have step : r * d * (a - ta) / ta = (r * d / ta) * (a - ta) by rewrite -!mulrA [_^-1 * _]mulrC.
have pos : lo <= d <= hi -> 0 < r * d / ta.
  by move=> /andP[h _]; rewrite divr_gt0 // mulr_gt0 //; exact: lt_le_trans h.
have tw : (0 : R) < 1 / IZR 20 by toR; lra.
split; first exact: jclip_in.
- move=> idle din; suff -> : ((a < ta - 1 / IZR 20) || (ta + 1 / IZR 20 < a)) && (window_size cfg < i)%N = false.
    exact: jclip_id.
  apply/negP => /andP[band w]; case: idle => [le|]; first by rewrite ltnNge le in w.
  rewrite ler_distl => /andP[b1 b2]; case/orP: band => b.
    by have := lt_le_trans b b1; rewrite ltxx.
  by have := lt_le_trans b b2; rewrite ltxx.
- move=> -> up din; rewrite up orbT /= step /jclip.
  have := pos din; move: (r * d / ta) => c c0; case/andP: din => d1 d2.
  have dlt : d < d + c * (a - ta) by rewrite ltr_addl mulr_gt0 // subr_gt0 (lt_trans _ up) // ltr_addl.
  rewrite max_l; last exact: (le_trans d1 (ltW dlt)).
  by have [h|h] := leP (d + c * (a - ta)) hi; [left|right].
- move=> -> dn din; rewrite dn /= step /jclip.
  have := pos din; move: (r * d / ta) => c c0; case/andP: din => d1 d2.
  have dlt : d + c * (a - ta) < d.
    by rewrite gtr_addl pmulr_rlt0 // subr_lt0 (lt_trans dn) // ltr_subl_addr ltr_addl.
  have [h|h] := leP (d + c * (a - ta)) lo; first by right; rewrite min_l.
  by left; rewrite min_l // (le_trans (ltW dlt)).
- move=> -> gap; have -> : (a < ta - 1 / IZR 20) || (ta + 1 / IZR 20 < a).
    move: gap; rewrite ltr_normr => /orP[h|h]; apply/orP; [right|left].
      by rewrite -ltr_subr_addl.
    by rewrite ltr_subr_addr -ltr_subr_addl -opprB.
  rewrite /= /jclip; set x := d + _; have [h|h] := leP x lo.
    by rewrite min_l // ltxx.
  have [h'|h'] := leP x hi; last by rewrite ltxx andbF.
  by move=> _; rewrite /x [d + _]addrC addrK -!mulrA; congr (_ * _); rewrite [LHS]mulrC -!mulrA.
Qed.
End Adapt.

(** ** The sampling loops *)
Lemma every_drop (A : Type) k (x : A) s : (0 < k)%N -> every k (x :: s) = x :: every k (drop k (x :: s)).
Proof.
case: k => // k _; rewrite /every [size (_ :: _)]/= [iota 0 _]/= [map _ _]/= dvdn0 /=; congr (_ :: _).
rewrite -{2}(cat_take_drop k s) size_drop.
have [le|lt] := leqP (size s) k.
  rewrite drop_oversize // take_oversize // cats0 (eqP (_ : (size s - k == 0)%N)) ?subn_eq0 //=.
  suff -> : [seq (k.+1 %| i)%N | i <- iota 1 (size s)] = nseq (size s) false by rewrite mask_false.
  apply: (@eq_from_nth _ false); rewrite !size_map size_iota ?size_nseq // => i lt.
  by rewrite (nth_map 0%N) ?size_iota // nth_iota // nth_nseq lt gtnNdvd // add1n ltnS (leq_trans lt).
rewrite -[size s in LHS](subnKC (ltnW lt)) iotaD map_cat mask_cat; last by rewrite size_map size_iota size_takel // ltnW.
have -> : [seq (k.+1 %| i)%N | i <- iota 1 k] = nseq k false.
  apply: (@eq_from_nth _ false); rewrite !size_map size_iota ?size_nseq // => i lti.
  by rewrite (nth_map 0%N) ?size_iota // nth_iota // nth_nseq lti gtnNdvd // add1n ltnS.
rewrite mask_false /= add1n; congr mask.
rewrite -[X in iota X _]addn0 iotaDl -map_comp; apply: eq_map => i /=.
by rewrite dvdn_addr.
Qed.

Lemma everyE (A : Type) (d : A) k s : (0 < k)%N -> every k s = thinned d k s.
Proof.
move=> k0; have [n le] := ubnP (size s); elim: n s le => // n IH [|x s] le.
  by rewrite /every /thinned /= add0n divn_small // prednK.
rewrite every_drop // IH; last first.
  rewrite size_drop /=; apply: leq_ltn_trans (leq_sub2l _ k0) _; by rewrite /= subn1.
rewrite /thinned size_drop [size (x :: s)]/=.
have -> : ((((size s).+1 + k.-1) %/ k) = (((size s).+1 - k + k.-1) %/ k).+1)%N.
  have [le'|lt] := leqP k (size s).+1.
    by rewrite -{1}(subnK le') addnAC divnDr ?dvdnn // divnn k0 addn1.
  rewrite (eqP (_ : ((size s).+1 - k == 0)%N)) ?subn_eq0 ?(ltnW lt) //.
  rewrite add0n (divn_small (_ : k.-1 < k)%N) ?prednK //; apply/eqP.
  case: k k0 lt {le IH} => //= k _; rewrite ltnS => lt.
  by rewrite addSn -addnS divnDr ?dvdnn // divnn divn_small // ltnS ltnW.
congr (_ :: _); rewrite -[RHS]/(map _ (iota (1 + 0) _)) iotaDl -map_comp; apply: eq_map => j /=.
by rewrite nth_drop mulnDl mul1n.
Qed.

Lemma scan_visited (S O I : Type) (K : key -> S -> prog S) (f : S -> S -> O) (kf : I -> key) s ins :
  scan (fun c i => do n <- K (kf i) c; Ret (n, f c n)) s ins =
  do l <- visited K [seq kf i | i <- ins] s; Ret (last s l, pairmap f s l).
Proof.
elim: ins s => [|i ins IH] s //=; rewrite !bind_assoc; apply: eq_bind => s' /=.
rewrite IH !bind_assoc; exact: eq_bind.
Qed.

Lemma mcmc_samplingE (X : Type) (I : eqType) T (K : key -> X * ('I_T -> I) -> prog (X * ('I_T -> I))) key s n k :
  mcmc_sampling K key s n k =
  do l <- visited K [seq split key i | i <- iota 0 n] s;
  Ret (if k == 0%N then inr (last s l)
       else inl (thinned s.1 k [seq x.1 | x <- l],
                 thinned (fun=> false) k (pairmap (fun a b => fun t : 'I_T => b.2 t != a.2 t) s l))).
Proof.
rewrite /mcmc_sampling.
have := @scan_visited _ _ _ K (fun c n => (n.1, @changed X I T c n)) (@snd nat Prog.key) s [seq (i, split key i) | i <- iota 0 n].
rewrite -map_comp => ->; rewrite bind_assoc; apply: eq_bind => l /=; congr Ret.
case: k => [|k] //; rewrite -!everyE //; congr (inl (every _ _, every _ _)).
  by elim: l s => //= x l IH s; rewrite IH.
by elim: l s => //= x l IH s; rewrite IH.
Qed.

Lemma scan_visited_out (S B I : Type) (K : key -> S -> prog (S * B)) (kf : I -> key) b s ins :
  scan (fun c i => do r <- K (kf i) c; Ret (r.1, (r.1, r.2))) s ins =
  do l <- visited (fun key x => K key x.1) [seq kf i | i <- ins] (s, b); Ret ((last (s, b) l).1, l).
Proof.
elim: ins b s => [|i ins IH] b s //=; rewrite !bind_assoc; apply: eq_bind => -[s' b'] /=.
rewrite (IH b') !bind_assoc; exact: eq_bind.
Qed.

Lemma tp_samplingE (X C : Type) (K : key -> X * C -> prog (X * C * bool)) key s n k :
  tp_sampling K key s n k =
  do l <- visited (fun key x => K key x.1) [seq split key i | i <- iota 0 n] (s, false);
  Ret (if k == 0%N then inr ((last (s, false) l).1.1, [seq x.2 | x <- l])
       else inl (thinned s.1 k [seq x.1.1 | x <- l], thinned false k [seq x.2 | x <- l])).
Proof.
rewrite /tp_sampling.
have := @scan_visited_out _ _ _ K (@snd nat Prog.key) false s [seq (i, split key i) | i <- iota 0 n].
rewrite -map_comp => ->; rewrite bind_assoc; apply: eq_bind => l /=; congr Ret.
by case: k => [|k] //; rewrite -!everyE.
Qed.

(** ** The progress bar *)
Section Pbar.
Variables (C I O : Type) (func : C -> nat * I -> prog (C * O)).

Lemma wrapper_forget n c ins :
  (do r <- scan (wrapper_progress_bar n func) c ins; Ret (r.1, [seq o.1 | o <- r.2])) = scan func c ins.
Proof.
elim: ins c => [|x ins IH] c //=; rewrite !bind_assoc; apply: eq_bind => -[c' o] /=.
by rewrite -IH !bind_assoc; apply: eq_bind => -[c2 os].
Qed.

Definition updates n i : seq nat :=
  (if (i %% print_rate n == 0)%N && (i != n - remainder n)%N then [:: print_rate n] else [::]) ++
  (if (i == n - remainder n)%N then [:: remainder n] else [::]).

Lemma wrapper_events n c ins :
  always (fun r => flatten [seq o.2 | o <- r.2] =
    flatten [seq update_progress_bar n x.1 ++ close_tqdm n x.1 | x <- ins]) (scan (wrapper_progress_bar n func) c ins).
Proof.
elim: ins c => [|x ins IH] c //=; apply/always_bind; apply/always_bind; apply: always_true => -[c' o] /=.
by apply/always_bind; apply: always_imp (IH c') => -[c'' os] /= ->.
Qed.

Lemma iota_snoc m : iota 0 m.+1 = iota 0 m ++ [:: m].
Proof. by rewrite -addn1 iotaD. Qed.

Lemma eventsE n : (0 < n)%N ->
  flatten [seq update_progress_bar n i ++ close_tqdm n i | i <- iota 0 n] =
  Define :: map Update (flatten [seq updates n i | i <- iota 0 n]) ++ [:: Close].
Proof.
case: n => // n _.
pose ev i := (if i == 0%N then [:: Define] else [::]) ++ map Update (updates n.+1 i) ++ (if i == n then [:: Close] else [::]).
have one i : update_progress_bar n.+1 i ++ close_tqdm n.+1 i = ev i.
  rewrite /update_progress_bar /close_tqdm /ev /updates map_cat -!catA.
  by congr (_ ++ _); congr (_ ++ _); [case: ifP|congr (_ ++ _); case: ifP].
rewrite (eq_map one).
have mid m : (m <= n)%N -> flatten [seq ev i | i <- iota 0 m] =
    (if m is 0 then [::] else [:: Define]) ++ map Update (flatten [seq updates n.+1 i | i <- iota 0 m]).
  elim: m => // m IH lt; rewrite !iota_snoc !map_cat !flatten_cat IH ?(ltnW lt) // map_cat /= !cats0 /ev.
  by rewrite (ltn_eqF lt) cats0; case: m {IH lt}.
rewrite !iota_snoc !map_cat !flatten_cat mid // map_cat /= !cats0 /ev eqxx -!catA.
by case: (n) => //.
Qed.

Lemma updates_total n : sumn (flatten [seq updates n i | i <- iota 0 n]) = n.
Proof.
rewrite sumn_flatten -map_comp.
have r0 : (0 < print_rate n)%N.
  by rewrite /print_rate; case: ifP => // h; rewrite divn_gt0 // ltnW.
have lt : (remainder n < print_rate n)%N by rewrite ltn_mod.
have def : n = (n %/ print_rate n * print_rate n + remainder n)%N by exact: divn_eq.
have last : (n - remainder n = n %/ print_rate n * print_rate n)%N by rewrite {1}def addnK.
have step i : (sumn \o updates n) i =
   ((if (print_rate n %| i) && (i != n %/ print_rate n * print_rate n) then print_rate n else 0) +
   (if i == n %/ print_rate n * print_rate n then remainder n else 0))%N.
  by rewrite /= /updates last sumn_cat /dvdn; case: (_ && _); case: (i == _); rewrite /= ?addn0.
rewrite (eq_map step) {step}; move: (print_rate n) (remainder n) (n %/ print_rate n)%N r0 lt def {last} => r m q r0 lt ->.
rewrite iotaD map_cat sumn_cat add0n; congr addn.
- have blk j : (j <= q)%N -> sumn [seq ((if (r %| i) && (i != q * r) then r else 0) + (if i == q * r then m else 0))%N | i <- iota 0 (j * r)] = (j * r)%N.
    elim: j => // j IH lej; rewrite mulSn addnC iotaD map_cat sumn_cat IH ?(ltnW lej) //; congr addn.
    rewrite add0n -[X in iota X _]addn0 iotaDl -map_comp; case: r r0 lt {IH} => // r _ lt /=.
    rewrite addn0 dvdn_mull // eqn_mul2r /= (ltn_eqF lej) addn0 -[RHS]addn0; congr addn.
    apply/eqP; rewrite sumnE big_map big_seq big1 // => i; rewrite mem_iota => /andP[i0]; rewrite add1n => i1.
    rewrite /= dvdn_addr ?dvdn_mull // gtnNdvd // add0n.
    by case: eqP => // e; have := dvdn_mull q (dvdnn r.+1); rewrite -e dvdn_addr ?dvdn_mull // gtnNdvd.
  exact: blk.
- case: m lt => // m lt; rewrite -[X in iota X _]addn0 iotaDl -map_comp /= addn0 eqxx andbF add0n -[RHS]addn0; congr addn.
  apply/eqP; rewrite sumnE big_map big_seq big1 // => i; rewrite mem_iota => /andP[i0]; rewrite add1n => i1.
  have lti := ltn_trans i1 lt.
  rewrite /= dvdn_addr ?dvdn_mull // gtnNdvd //.
  by rewrite -[X in _ == X]addn0 eqn_add2l; case: i i0 {i1 lti}.
Qed.

Lemma wrapper_bar n c ins : (0 < n)%N -> [seq x.1 | x <- ins] = iota 0 n ->
  always (fun r => exists us, flatten [seq o.2 | o <- r.2] = Define :: map Update us ++ [:: Close] /\ sumn us = n)
    (scan (wrapper_progress_bar n func) c ins).
Proof.
move=> n0 ids; apply: always_imp (wrapper_events n c ins) => r ->.
exists (flatten [seq updates n i | i <- iota 0 n]); split; last exact: updates_total.
by rewrite -eventsE // -ids -map_comp.
Qed.
End Pbar.

(** ** The three adaptation loops *)
Lemma traced_in (S S' J : Type) (K : key -> S -> (J -> R) -> prog S') next acc stat cfg key init d0 n :
  (forall v v', v =1 v' -> stat v =1 stat v') -> min_delta cfg <= max_delta cfg ->
  always (fun r => forall t, min_delta cfg <= r.2 t <= max_delta cfg) (adapt_routine K next acc stat cfg key init d0 n.+1).
Proof.
move=> ext lohi; apply: always_runs => r o; have [St [D [A [_ _ -> H]]]] := adapt_trace ext o; move=> t /=.
by have [_ ->] := H n (ltnSn n); apply: adapt_in.
Qed.

Lemma mcmc_in (X : Type) (I : eqType) T (K : key -> X * ('I_T -> I) -> ('I_T -> R) -> prog (X * ('I_T -> I))) cfg key init d0 n :
  min_delta cfg <= max_delta cfg ->
  always (fun r => forall t, min_delta cfg <= r.2 t <= max_delta cfg) (mcmc_adaptation K cfg key init d0 n.+1).
Proof. by move=> h; apply: traced_in. Qed.

Lemma t_atp_in (X : Type) (I : eqType) T (agg : ('I_T -> option R) -> option R)
    (K : key -> X * ('I_T -> I) -> ('I_T -> R) -> prog (X * ('I_T -> I))) cfg key init d0 n :
  min_delta cfg <= max_delta cfg ->
  always (fun r => forall t, min_delta cfg <= r.2 t <= max_delta cfg) (t_atp_adaptation agg K cfg key init d0 n.+1).
Proof. by move=> h; apply: traced_in => // v v' e t; congr agg; apply: functional_extensionality. Qed.

Lemma tp_in (S : Type) (K : key -> S -> R -> prog (S * bool)) cfg key init d0 n :
  min_delta cfg <= max_delta cfg ->
  always (fun r => min_delta cfg <= r.2 <= max_delta cfg) (tp_adaptation K cfg key init d0 n.+1).
Proof.
move=> h; apply/always_bind; apply: (always_imp _ (@traced_in S (S * bool) unit _ fst (fun _ out _ => out.2) id cfg key init (fun=> d0) n _ h)) => //.
by move=> [s d] /= H.
Qed.

Local Notation adapted cfg := (adapted (target_acceptance cfg) (min_delta cfg) (max_delta cfg) (window_size cfg) (min_rate cfg) (rate cfg)).

Section Traces.
Variables (X : Type) (I : eqType) (T : nat) (K : key -> X * ('I_T -> I) -> ('I_T -> R) -> prog (X * ('I_T -> I))) (cfg : config).
Hypotheses (ta0 : 0 < target_acceptance cfg) (mr0 : 0 < min_rate cfg) (lo0 : 0 < min_delta cfg)
  (lohi : min_delta cfg <= max_delta cfg) (w0 : (0 < window_size cfg)%N).

Lemma mcmc_trace key init d0 n r : outcome (mcmc_adaptation K cfg key init d0 n) r ->
  exists (St : nat -> X * ('I_T -> I)) (D : nat -> 'I_T -> R),
  [/\ St 0%N = init, D 0%N = d0, r = (St n, D n) & forall i, (i < n)%N ->
    outcome (K (split key i) (St i) (D i)) (St i.+1) /\
    forall t, adapted cfg i (recent_rate (window_size cfg) i (fun j => (St j.+1).2 t != (St j).2 t)) (D i t) (D i.+1 t)].
Proof.
have ext : forall v v' : 'I_T -> option R, v =1 v' -> id v =1 id v' by [].
move=> o; have [St [D [A [h1 h2 h3 H]]]] := adapt_trace ext o; exists St, D; split=> // i lt.
have [[out [o1 o2 _]] hD] := H i lt; split=> [|t]; first by rewrite o2.
rewrite hD nanmean_hist //; rewrite (_ : recent_rate _ i _ = recent_rate (window_size cfg) i (A^~ t)).
  exact: adapt_adapts.
rewrite /recent_rate; congr (_ / _); rewrite !big_nat; apply: eq_bigr => j /andP[_ ltj].
have [|[out' [_ -> ->]] _] := H j; last by [].
by rewrite (leq_trans ltj).
Qed.

Lemma t_atp_trace (agg : ('I_T -> option R) -> option R) (f : ('I_T -> R) -> R) key init d0 n r :
  (forall v, agg (fun t => Some (v t)) = Some (f v)) ->
  outcome (t_atp_adaptation agg K cfg key init d0 n) r ->
  exists (St : nat -> X * ('I_T -> I)) (D : nat -> 'I_T -> R),
  [/\ St 0%N = init, D 0%N = d0, r = (St n, D n) & forall i, (i < n)%N ->
    outcome (K (split key i) (St i) (D i)) (St i.+1) /\
    forall t, adapted cfg i (f (fun u => recent_rate (window_size cfg) i (fun j => (St j.+1).2 u != (St j).2 u))) (D i t) (D i.+1 t)].
Proof.
move=> hf; have ext : forall v v' : 'I_T -> option R, v =1 v' -> (fun _ : 'I_T => agg v) =1 (fun=> agg v').
  by move=> v v' e t; congr agg; apply: functional_extensionality.
move=> o; have [St [D [A [h1 h2 h3 H]]]] := adapt_trace ext o; exists St, D; split=> // i lt.
have [[out [o1 o2 _]] hD] := H i lt; split=> [|t]; first by rewrite o2.
rewrite hD (_ : (fun t0 => _) = (fun t => Some (recent_rate (window_size cfg) i (fun j => (St j.+1).2 t != (St j).2 t)))); last first.
  apply: functional_extensionality => u; rewrite nanmean_hist //; congr Some.
  rewrite /recent_rate; congr (_ / _); rewrite !big_nat; apply: eq_bigr => j /andP[_ ltj].
  have [|[out' [_ -> ->]] _] := H j; last by [].
  by rewrite (leq_trans ltj).
rewrite hf; exact: adapt_adapts.
Qed.
End Traces.

Lemma agg_meanE T (v : 'I_T.+1 -> R) : agg_mean (fun t => Some (v t)) = Some ((\sum_t v t) / T.+1%:R).
Proof.
rewrite /agg_mean /nanmean.
have -> : pmap id [seq Some (v t) | t <- enum 'I_T.+1] = [seq v t | t <- enum 'I_T.+1].
  by elim: (enum _) => //= t s ->.
have : size [seq v t | t <- enum 'I_T.+1] = T.+1 by rewrite size_map size_enum_ord.
have <- : \sum_(b <- [seq v t | t <- enum 'I_T.+1]) b = \sum_t v t by rewrite big_map big_enum.
by case: [seq v t | t <- enum 'I_T.+1] => [|x s] //= ->.
Qed.

Lemma tp_trace (S : Type) (K : key -> S -> R -> prog (S * bool)) cfg key init d0 n r :
  0 < target_acceptance cfg -> 0 < min_rate cfg -> 0 < min_delta cfg ->
  min_delta cfg <= max_delta cfg -> (0 < window_size cfg)%N ->
  outcome (tp_adaptation K cfg key init d0 n) r ->
  exists (St : nat -> S) (D : nat -> R) (A : nat -> bool),
  [/\ St 0%N = init, D 0%N = d0, r = (St n, D n) & forall i, (i < n)%N ->
    outcome (K (split key i) (St i) (D i)) (St i.+1, A i) /\
    adapted cfg i (recent_rate (window_size cfg) i A) (D i) (D i.+1)].
Proof.
move=> ta0 mr0 lo0 lohi w0 [ks /runs_bind [ks1 [ks2 [[s d] [_ r1 /= [_ ->]]]]]].
have ext : forall v v' : unit -> option R, v =1 v' -> id v =1 id v' by [].
have [St [D [A [h1 h2 [-> ->] H]]]] := adapt_trace ext (ex_intro _ ks1 r1).
exists St, (fun i => D i tt), (fun i => A i tt); split=> //; first by rewrite h2.
move=> i lt; have [[[s' b] [o1 o2 o3]] hD] := H i lt.
split; first by rewrite o2 o3.
by rewrite hD nanmean_hist //; exact: adapt_adapts.
Qed.

(** ** Iterating a kernel that keeps a target *)
Lemma visited_keeps (S : finType) (target : S -> R) (K : key -> S -> prog S) keys :
  (forall k, keeps_target target (K k)) ->
  keeps_target target (fun s => do l <- visited K keys s; Ret (last s l)).
Proof.
move=> H; elim: keys => [|k keys IH] f //=.
rewrite -[RHS]IH -[RHS](H k); apply: eq_bigr => s _; congr (_ * _).
rewrite bind_assoc E_bind; apply: eq_E => s'.
by rewrite bind_assoc.
Qed.

(** ** Keys *)
Lemma uses_adapt (S S' J : Type) (K : key -> S -> (J -> R) -> prog S') next acc stat cfg key init d0 n :
  (forall key s d, uses [:: key] (K key s d)) -> uses [:: key] (adapt_routine K next acc stat cfg key init d0 n).
Proof.
move=> u; apply: (@uses_root (kids key 0 n)); first exact: kids_below.
rewrite -[kids _ _ _]cats0; apply: uses_bind => [||[c os]]; [by rewrite allrel0r| |exact: uses_ret].
have -> : kids key 0 n = [seq x.2 | x <- [seq (i, split key i) | i <- iota 0 n]] by rewrite -map_comp.
apply: uses_scan => [|[[s d] h] [i k]]; first by rewrite -map_comp; exact: kids_indep.
by apply: uses_ret_bind; exact: u.
Qed.

Lemma uses_visited S (K : key -> S -> prog S) key c n s :
  (forall key s, uses [:: key] (K key s)) -> uses (kids key c n) (visited K (kids key c n) s).
Proof.
move=> u; have := kids_indep key c n; elim: (kids key c n) s => [|k ks IH] s /=; first by move=> _; exact: uses_ret.
move=> /andP[al pw]; rewrite -cat1s; apply: uses_bind => [||s']; first by rewrite allrel1l.
  exact: u.
by apply: uses_ret_bind; exact: IH.
Qed.

Lemma uses_mcmc_sampling (X : Type) (I : eqType) T (K : key -> X * ('I_T -> I) -> prog (X * ('I_T -> I))) key s n k :
  (forall key s, uses [:: key] (K key s)) -> uses [:: key] (mcmc_sampling K key s n k).
Proof.
move=> u; rewrite mcmc_samplingE; apply: uses_ret_bind; apply: (@uses_root (kids key 0 n)); first exact: kids_below.
exact: uses_visited.
Qed.

Lemma uses_tp_sampling (X C : Type) (K : key -> X * C -> prog (X * C * bool)) key s n k :
  (forall key s, uses [:: key] (K key s)) -> uses [:: key] (tp_sampling K key s n k).
Proof.
move=> u; rewrite tp_samplingE; apply: uses_ret_bind; apply: (@uses_root (kids key 0 n)); first exact: kids_below.
by apply: uses_visited.
Qed.

(** ** Witnesses *)
Definition ex_cfg : config := Config (1 / IZR 2) (1 / IZR 1000) (IZR 100) (1 / IZR 100) (1 / IZR 10) 1.

Lemma ex_cfg_ok : [/\ 0 < target_acceptance ex_cfg, 0 < min_rate ex_cfg, 0 < min_delta ex_cfg,
  min_delta ex_cfg <= max_delta ex_cfg & (0 < window_size ex_cfg)%N].
Proof. by split=> //=; toR; lra. Qed.

(** A chain whose index changes at every iteration. *)
Definition ex_kernel (key : key) (s : unit * ('I_1 -> bool)) (d : 'I_1 -> R) : prog (unit * ('I_1 -> bool)) :=
  Ret (tt, fun t => ~~ s.2 t).

Lemma ex_adapts : exists r, outcome (mcmc_adaptation ex_kernel ex_cfg [::] (tt, fun=> false) (fun=> 1) 3) r /\ 1 < r.2 ord0.
Proof.
have [r o] : exists r, outcome (mcmc_adaptation ex_kernel ex_cfg [::] (tt, fun=> false) (fun=> 1) 3) r.
  by eexists; exists [::]; split.
have [c1 c2 c3 c4 c5] := ex_cfg_ok.
have [St [D [h0 hD hr H]]] := mcmc_trace c1 c2 c3 c4 c5 o.
exists r; split=> //; rewrite hr /=.
have one : forall i, (i < 3)%N -> (St i.+1).2 ord0 != (St i).2 ord0.
  move=> i lt; have [[ks [_ ->]] _] := H i lt; rewrite /=; by case: (_ ord0).
have in1 : 1 / IZR 1000 <= (1 : R) <= IZR 100 by apply/andP; split; toR; lra.
have d1 : D 1%N ord0 = 1.
  have [_ /(_ ord0) [q _ ad]] := H 0%N isT; have := adapts_idle ad; rewrite hD /= => -> //; by left.
have d2 : D 2%N ord0 = 1.
  have [_ /(_ ord0) [q _ ad]] := H 1%N isT; have := adapts_idle ad; rewrite d1 /= => -> //; by left.
have [_ /(_ ord0) [q _ ad]] := H 2%N isT.
have := adapts_up ad; rewrite /recent_rate d2 /= !big_nat1 one // divr1 => h.
have [|lt|->] := h isT _ in1; [toR; lra|done|toR; lra].
Qed.
