(** Properties C31-C35 (and C70, C71): iterative solvers. *)
Set Warnings "-notation-overridden,-ambiguous-paths".
From mathcomp Require Import all_ssreflect all_algebra.
From Coq Require Import String.
From Verif Require Import Py Nd Spec LinAlg Dmx DmxProofs LgpModel LgpTheory LgpProofs
  LinProps LinProps3 IterModel.
Set Implicit Arguments. Unset Strict Implicit. Unset Printing Implicit Defensive.
Import Order.Theory GRing.Theory Num.Theory.
Local Open Scope ring_scope.

(** [holds_col v u]: the array [v], of shape (m,) or (m,1), holds the entries of [u]. *)
Definition holds_col (R : realFieldType) m (v : nd R) (u : 'cV[R]_m) :=
  (shape v = [:: m] \/ shape v = [:: m; 1%N]) /\ holds1 v u.

(** Python's index [i] into [m] rows means row [k]. *)
Definition names_row (m : nat) (i : int) (k : 'I_m) := py_index m i = Ok (k : nat).

(** Every scheduled index names a row. *)
Definition valid_schedule m (idx : seq int) := forall i, i \in idx -> exists k, @names_row m i k.

Section IterProps.
Variable R : realFieldType.
Variables (m n : nat) (A : 'M[R]_(m, n)) (b y : 'cV[R]_m) (C : 'M[R]_n).
Variables (a vb vy : nd R).
Hypotheses (ha : holds2 a A) (wa : nd_wf a) (hb : holds_col vb b) (hy : holds_col vy y).

Definition arr (x : 'cV[R]_n) : nd R := nd1 [seq x i 0 | i <- enum 'I_n].
Lemma holds_arr x : holds1 (arr x) x.
Proof.
split; first by rewrite /= size_map size_enum_ord.
move=> i /=; rewrite (nth_map i) ?size_enum_ord //.
by rewrite nth_ord_enum.
Qed.

(** The row problem. *)
Let Ar (k : 'I_m) : 'M[R]_(1, n) := row k A.
Let bk (k : 'I_m) : 'cV[R]_1 := (b k 0)%:M.
Let yk (k : 'I_m) : 'cV[R]_1 := (y k 0)%:M.
Definition rowstep (k : 'I_m) (x : 'cV[R]_n) : 'cV[R]_n := mudx (Ar k) (bk k) (yk k) x C.

Lemma py_index_lt i k : py_index m i = Ok k -> (k < m)%N.
Proof.
case: i => j /=; case: ifP => // h [<-] //.
by rewrite ltn_subrL /= (leq_trans _ h).
Qed.

Lemma item_col (v : nd R) (u : 'cV[R]_m) i (k : 'I_m) : holds_col v u -> names_row i k ->
  exists w, [/\ nd_item v i = Ok w, holds1 w ((u k 0)%:M : 'cV_1) & (ndim w <= 1)%N].
Proof.
case=> sh [sz h] ik; rewrite /nd_item.
have hd : take 1 (drop k (data v)) = [:: u k 0].
  have hk : (k < size (data v))%N by rewrite sz.
  by rewrite (drop_nth 0) //= take0 h.
case: sh => ->; rewrite ik /= ?muln1 hd; eexists; split=> //; split=> // j.
  by rewrite (ord1 j) mxE.
by rewrite (ord1 j) mxE.
Qed.

Lemma item_row i (k : 'I_m) : names_row i k ->
  exists w, nd_item a i = Ok w /\ holds2 (Nd [:: 1%N; size (data w)] (data w)) (Ar k).
Proof.
case: ha => sa h ik; rewrite /nd_item sa ik /= muln1.
eexists; split; first by [].
move: wa; rewrite /nd_wf sa /= muln1 => /eqP sz.
have szk : size (take n (drop (k * n) (data a))) = n.
  rewrite size_take size_drop sz -mulnBl.
  case: ifP => // /negbT; rewrite -leqNgt => hle; apply/eqP; rewrite eqn_leq hle /=.
  by rewrite leq_pmull // subn_gt0.
split; first by rewrite /= szk.
move=> j l; rewrite (ord1 j) mul0n add0n /= nth_take // nth_drop h.
by rewrite mxE.
Qed.

Lemma step_ok i (k : 'I_m) (vm : nd R) x : names_row i k -> holds1 vm x ->
  exists Ai bi yi, [/\ nd_item a i = Ok Ai, nd_item vb i = Ok bi, nd_item vy i = Ok yi
    & mud_sol (Nd [:: 1%N; size (data Ai)] (data Ai)) (Some bi) (Some yi) (Some vm)
        (Some (Dmx C)) None = Ok (SFlat (data (arr (rowstep k x))))].
Proof.
move=> ik hx.
have [Ai [eA hA]] := item_row ik.
have [bi [eb hbi _]] := item_col hb ik; have [yi [ey hyi ny]] := item_col hy ik.
exists Ai, bi, yi; split=> //.
have [p [e ip _]] := C21_init_inputs C (1%:M : 'M_1) 1 hA hbi hyi hx.
have e' : lin_prob (Nd [:: 1%N; size (data Ai)] (data Ai)) (Some bi) (Some yi) (Some vm)
   (Some (Dmx C)) None None = Ok p.
  by rewrite -e /lin_prob /lgp_init /=.
rewrite /mud_sol e' [rbind (Ok p) _]/= (mud_answer ip ltr01) /= /shape_like ltnNge ny /=.
congr (Ok (SFlat _)).
rewrite /dravel /= muln1 -val_enum_ord -map_comp; apply: eq_map => j /=.
by rewrite divn1 modn1 -[0%N]/(nat_of_ord (ord0 : 'I_1)) dgetE.
Qed.

(** [tracks chain vs]: the arrays of the chain hold the vectors [vs]. *)
Definition tracks (chain : seq (nd R)) (vs : seq 'cV[R]_n) :=
  size chain = size vs /\
  forall j, (j < size chain)%N -> holds1 (nth (nd1 [::]) chain j) (nth 0 vs j).

(** Each vector of [vs] after the first comes from its predecessor by the row step
    of the corresponding scheduled row. *)
Definition follows (idx : seq int) (vs : seq 'cV[R]_n) :=
  size vs = (size idx).+1 /\
  forall j k, (j < size idx)%N -> names_row (nth 0 idx j) k ->
    nth 0 vs j.+1 = rowstep k (nth 0 vs j).

Lemma epoch_steps_ok idx vm x : valid_schedule m idx -> holds1 vm x ->
  exists rest vs, [/\ epoch_steps a vb vy (Some (Dmx C)) idx vm = Ok rest,
    tracks (vm :: rest) (x :: vs) & follows idx (x :: vs)].
Proof.
elim: idx vm x => [|i idx IH] vm x V hx.
  by exists [::], [::]; split=> //; split=> //; case.
have [k ik] := V i (mem_head _ _).
have V' : valid_schedule m idx by move=> j hj; apply: V; rewrite in_cons hj orbT.
have [Ai [bi [yi [e1 e2 e3 e4]]]] := step_ok ik hx.
have [rest [vs [er [t1 t2] [f1 f2]]]] := IH _ _ V' (holds_arr (rowstep k x)).
exists (arr (rowstep k x) :: rest), (rowstep k x :: vs); split.
- by rewrite /= e1 /= e2 /= e3 /= e4 /= -/(arr _) er.
- split; first by rewrite /= in t1 *; rewrite t1.
  by case=> [|j] //= hj; exact: (t2 j).
- split; first by rewrite /= in f1 *; rewrite f1.
  case=> [|j] k' //= hj hk; last exact: f2.
  by move: hk; rewrite /names_row ik => -[/val_inj <-].
Qed.

Lemma performEpoch_ok idx vm x dcov : valid_schedule m idx -> holds1 vm x ->
  exists chain vs, [/\ performEpoch a vb vy vm (Some (Dmx C)) dcov (Some idx) = Ok (vm :: chain),
    tracks (vm :: chain) (x :: vs) & follows idx (x :: vs)].
Proof.
move=> V hx; have [rest [vs [e t f]]] := epoch_steps_ok V hx.
by exists rest, vs; rewrite /performEpoch e.
Qed.

(** [A_k x + b_k = y_k] *)
Definition satisfies (k : 'I_m) (x : 'cV[R]_n) := (A *m x) k 0 + b k 0 = y k 0.

Lemma row_eq k (x : 'cV[R]_n) : Ar k *m x + bk k = yk k <-> satisfies k x.
Proof.
have e : Ar k *m x = ((A *m x) k 0)%:M.
  by apply/matrixP=> i j; rewrite -row_mul !mxE (ord1 i) (ord1 j) mulr1n.
rewrite e /bk /yk -raddfD /satisfies; split=> [/matrixP /(_ 0 0)|->] //.
by rewrite !mxE !mulr1n.
Qed.

Lemma row_full k : row k A != 0 -> row_free (Ar k).
Proof. by move=> nz; rewrite /row_free rank_rV nz. Qed.

Lemma rowstep_sat k x : posdef C -> row k A != 0 -> satisfies k (rowstep k x).
Proof. by move=> pC nz; apply/row_eq; apply: mud_fit => //; apply: row_full. Qed.

Theorem C31_epoch_points_satisfy_their_row idx vm (x : 'cV[R]_n) dcov :
  posdef C -> valid_schedule m idx -> holds1 vm x ->
  exists chain, [/\ performEpoch a vb vy vm (Some (Dmx C)) dcov (Some idx) = Ok chain,
    size chain = (size idx).+1, nth (nd1 [::]) chain 0 = vm
    & forall j k, (j < size idx)%N -> names_row (nth 0 idx j) k -> row k A != 0 ->
      exists2 z, holds1 (nth (nd1 [::]) chain j.+1) z & satisfies k z].
Proof.
move=> pC V hx; have [chain [vs [e [t1 t2] [f1 f2]]]] := performEpoch_ok dcov V hx.
exists (vm :: chain); split=> //; first by rewrite t1 f1.
move=> j k hj hk nz; exists (nth 0 (x :: vs) j.+1).
  by apply: t2; rewrite t1 f1.
by rewrite (f2 _ _ hj hk); apply: rowstep_sat.
Qed.

(** One step of the iteration: Pythagoras in the cov^-1 norm, for any rank. *)
Lemma rowstep_pyth k x xs : posdef C -> satisfies k xs ->
  mahal C xs x = mahal C xs (rowstep k x) + quad (invmx C) (rowstep k x - x).
Proof.
move=> pC /row_eq hs.
have bf : best_fit (Ar k) (bk k) (yk k) xs.
  apply: normal_best; rewrite hs subrr mulmx0 //.
have h := best_same (mud_normal (Ar k) (bk k) (yk k) x pC) bf.
have := mud_pythagoras pC h; rewrite /mahal -/(rowstep k x) => e.
have sw (u v : 'cV[R]_n) : quad (invmx C) (u - v) = quad (invmx C) (v - u).
  by rewrite -opprB quadNv.
by rewrite sw e addrC; congr (_ + _); rewrite sw.
Qed.

Definition le_dist xs (x x' : 'cV[R]_n) :=
  mahal C xs x' <= mahal C xs x /\ (x' <> x -> mahal C xs x' < mahal C xs x).

Lemma rowstep_le k x xs : posdef C -> satisfies k xs -> le_dist xs x (rowstep k x).
Proof.
move=> pC hs; rewrite /le_dist (rowstep_pyth x pC hs).
have pC' := posdef_inv pC; split=> [|ne].
  by rewrite ler_addl; case: (posdef_psd pC').
by rewrite ltr_addl; apply: pC'.2; rewrite subr_eq0; apply/eqP.
Qed.


(** [E] epochs over the schedule, as vectors. *)
Definition epochs (E : nat) (idx : seq int) (x : 'cV[R]_n) (vs : seq 'cV[R]_n) :=
  [/\ size vs = (E * (size idx).+1)%N, nth 0 vs 0 = x,
      (forall q j k, (q < E)%N -> (j < size idx)%N -> names_row (nth 0 idx j) k ->
         nth 0 vs (q * (size idx).+1 + j.+1) = rowstep k (nth 0 vs (q * (size idx).+1 + j)))
    & (forall q, (0 < q < E)%N ->
         nth 0 vs (q * (size idx).+1) = nth 0 vs (q * (size idx).+1).-1)].

Lemma more_epochs_ok idx x dcov k E chain vs : valid_schedule m idx -> (0 < E)%N ->
  tracks chain vs -> epochs E idx x vs ->
  exists chain' vs',
    [/\ more_epochs a vb vy (Some (Dmx C)) dcov (Some idx) k chain = Ok chain',
        tracks chain' vs', epochs (E + k) idx x vs',
        (exists rest, chain' = chain ++ rest)
      & forall q, (E <= q < E + k)%N ->
         nth (nd1 [::]) chain' (q * (size idx).+1)
         = nth (nd1 [::]) chain' (q * (size idx).+1).-1].
Proof.
move=> V; elim: k E chain vs => [|k IH] E chain vs E0 t p.
  exists chain, vs; rewrite addn0; split=> //; first by exists [::]; rewrite cats0.
  by move=> q /andP [h1 h2]; move: (leq_trans h2 h1); rewrite ltnn.
have [sz hx f be] := p; have [t1 t2] := t; set L := (size idx).+1 in sz f be *.
have szc : size chain = (E * L)%N by rewrite t1.
have EL : (0 < E * L)%N by rewrite muln_gt0 E0.
have pl : ((E * L).-1 < E * L)%N by rewrite ltn_predL.
have hlast : holds1 (last (nd1 [::]) chain) (last 0 vs).
  by rewrite -!nth_last -t1 szc; apply: t2; rewrite szc.
have [c [ws [ec [c1 c2] [g1 g2]]]] := performEpoch_ok dcov V hlast.
set vm := last _ chain in ec c1 c2; set x' := last _ vs in c1 c2 g1 g2.
have t' : tracks (chain ++ vm :: c) (vs ++ x' :: ws).
  split; first by rewrite !size_cat t1 c1.
  move=> j hj; rewrite !nth_cat -t1; case: ltnP => h; first exact: t2.
  by apply: c2; rewrite size_cat in hj; rewrite ltn_subLR.
have p' : epochs E.+1 idx x (vs ++ x' :: ws).
  split.
  - by rewrite size_cat sz g1 mulSn addnC.
  - by rewrite nth_cat sz EL.
  - move=> q j k' hq hj hk; rewrite !nth_cat sz -/L.
    move: hq; rewrite ltnS leq_eqVlt => /orP [/eqP ->|hq].
      by rewrite !ltnNge !leq_addr /= !addKn; apply: g2.
    have h1 : (q * L + j.+1 < E * L)%N.
      by rewrite (@leq_trans (q.+1 * L)) ?leq_mul2r ?hq ?orbT // mulSn addnC ltn_add2r.
    by rewrite h1 (ltn_trans _ h1) ?ltn_add2l //; apply: f.
  - move=> q /andP [q0 hq]; rewrite !nth_cat sz -/L.
    move: hq; rewrite ltnS leq_eqVlt => /orP [/eqP ->|hq].
      by rewrite ltnn subnn pl -[in RHS]sz nth_last.
    have h1 : (q * L < E * L)%N by rewrite ltn_mul2r /= hq.
    by rewrite h1 (leq_ltn_trans (leq_pred _) h1); apply: be; rewrite q0.
have [chain' [vs' [e1 e2 e3 [rest e4] e5]]] := IH E.+1 _ _ isT t' p'.
exists chain', vs'; split=> //.
- by rewrite /= ec.
- by rewrite addnS -addSn.
- by exists ((vm :: c) ++ rest); rewrite catA.
move=> q /andP [hq1 hq2]; move: hq1; rewrite leq_eqVlt => /orP [/eqP <-|hq1]; last first.
  by apply: e5; rewrite hq1 addSn -addnS.
rewrite e4 -catA !nth_cat szc ltnn subnn pl /=.
by rewrite -[in RHS]szc nth_last.
Qed.

Lemma iterate_ok idx vm x dcov e : valid_schedule m idx -> holds1 vm x ->
  let E := if e is Posz k then maxn 1 k else 1%N in
  exists chain vs,
  [/\ iterate a vb vy vm (Some (Dmx C)) dcov e (Some idx) = Ok chain,
      tracks chain vs, epochs E idx x vs, nth (nd1 [::]) chain 0 = vm
    & forall q, (0 < q < E)%N -> nth (nd1 [::]) chain (q * (size idx).+1)
        = nth (nd1 [::]) chain (q * (size idx).+1).-1].
Proof.
move=> V hx E; have [c [vs [ec t [f1 f2]]]] := performEpoch_ok dcov V hx.
have p : epochs 1 idx x (x :: vs).
  split=> //; first by rewrite f1 mul1n.
    by case=> // j k _ hj hk; rewrite !mul0n !add0n; apply: f2.
  by case=> [|q].
set k := (if e is Posz k then k.-1 else 0)%N.
have eE : E = (1 + k)%N.
  by rewrite /E /k; case: (e) => // -[|j] //=; rewrite add1n /maxn; case: j.
have [chain' [vs' [e1 e2 e3 [rest e4] e5]]] := more_epochs_ok dcov k V (ltn0Sn 0) t p.
exists chain', vs'; split=> //.
- by rewrite /iterate ec.
- by rewrite eE.
- by rewrite e4.
- by move=> q hq; apply: e5; rewrite -eE.
Qed.

Lemma iterate_dcov vm cov dcov dcov' e idx :
  iterate a vb vy vm cov dcov e idx = iterate a vb vy vm cov dcov' e idx.
Proof.
rewrite /iterate; have -> : performEpoch a vb vy vm cov dcov idx
  = performEpoch a vb vy vm cov dcov' idx by [].
case: (performEpoch _ _ _ _ _ dcov' _) => [c|err]; last by [].
cbn [rbind]; elim: (if e is Posz _ then _ else _) c => [//|k IH c].
cbn [more_epochs]; have -> : performEpoch a vb vy (last (nd1 [::]) c) cov dcov idx
  = performEpoch a vb vy (last (nd1 [::]) c) cov dcov' idx by [].
case: (performEpoch _ _ _ _ _ dcov' _) => [c'|err]; last by [].
exact: IH.
Qed.

Theorem C33_chain_bookkeeping idx vm (x : 'cV[R]_n) dcov dcov' e :
  valid_schedule m idx -> holds1 vm x ->
  let E := if e is Posz k then maxn 1 k else 1%N in
  exists chain,
  [/\ iterate a vb vy vm (Some (Dmx C)) dcov e (Some idx) = Ok chain,
      iterate a vb vy vm (Some (Dmx C)) dcov' e (Some idx) = Ok chain,
      size chain = (E * (size idx).+1)%N,
      nth (nd1 [::]) chain 0 = vm
    & forall q, (0 < q < E)%N ->
        nth (nd1 [::]) chain (q * (size idx).+1)
        = nth (nd1 [::]) chain (q * (size idx).+1).-1].
Proof.
move=> V hx E; have [chain [vs [e1 [t1 _] [sz _ _ _] e3 e4]]] := iterate_ok dcov e V hx.
exists chain; split=> //; last by rewrite t1.
by rewrite -e1; apply: iterate_dcov.
Qed.

(** Consecutive chain points are equal (epoch boundary) or one row step apart. *)
Lemma epochs_step E idx x vs j : valid_schedule m idx -> epochs E idx x vs ->
  (j.+1 < size vs)%N ->
  nth 0 vs j.+1 = nth 0 vs j \/
  exists i k, [/\ i \in idx, names_row i k & nth 0 vs j.+1 = rowstep k (nth 0 vs j)].
Proof.
move=> V [sz x0 f be] hj.
set L := (size idx).+1 in sz f be.
have L0 : (0 < L)%N by [].
have ej := divn_eq j L; set q := (j %/ L)%N in ej; set r := (j %% L)%N in ej.
have rL : (r < L)%N by apply: ltn_pmod.
move: rL; rewrite ltnS leq_eqVlt => /orP [/eqP er|hr].
  have ej1 : j.+1 = (q.+1 * L)%N by rewrite {1}ej er mulSn [in RHS]addnC {3}/L addnS.
  have hq : (0 < q.+1 < E)%N.
    by rewrite /=; move: hj; rewrite sz ej1 ltn_mul2r L0.
  by left; rewrite ej1 (be _ hq) -ej1.
have hqE : (q < E)%N.
  have : (q * L < E * L)%N.
    by rewrite -sz; apply: leq_ltn_trans (ltnW hj); apply: leq_trunc_div.
  by rewrite ltn_mul2r => /andP [].
have hin : nth 0 idx r \in idx by apply: mem_nth.
have [k hk] := V _ hin; right; exists (nth 0 idx r), k; split=> //.
by have := f _ _ _ hqE hr hk; rewrite addnS -ej.
Qed.

(** Distances to a solution never increase along the whole chain. *)
Theorem C32_iteration_is_fejer idx vm (x : 'cV[R]_n) dcov e xs :
  posdef C -> valid_schedule m idx -> holds1 vm x ->
  (forall i k, i \in idx -> names_row i k -> satisfies k xs) ->
  exists chain vs,
  [/\ iterate a vb vy vm (Some (Dmx C)) dcov e (Some idx) = Ok chain, tracks chain vs,
      nth 0 vs 0 = x
    & forall j, (j.+1 < size vs)%N ->
        mahal C xs (nth 0 vs j.+1) <= mahal C xs (nth 0 vs j) /\
        (nth 0 vs j.+1 <> nth 0 vs j ->
           mahal C xs (nth 0 vs j.+1) < mahal C xs (nth 0 vs j))].
Proof.
move=> pC V hx hs; have [chain [vs [e1 t [sz x0 f be] _ _]]] := iterate_ok dcov e V hx.
exists chain, vs; split=> // j hj.
have ep : epochs (if e is Posz k then maxn 1 k else 1%N) idx x vs by [].
have [->|[i [k [hi hk ->]]]] := epochs_step V ep hj; first by split.
exact/rowstep_le/(hs _ _ hi).
Qed.

End IterProps.
