(** Properties C70-C73: what the iteration converges to. *)
Set Warnings "-notation-overridden,-ambiguous-paths".
From mathcomp Require Import all_ssreflect all_algebra.
From Coq Require Import String.
From Verif Require Import Py Nd Spec LinAlg Dmx DmxProofs LgpModel LgpTheory LgpProofs
  LinProps LinProps3 IterModel IterProps.
Set Implicit Arguments. Unset Strict Implicit. Unset Printing Implicit Defensive.
Import Order.Theory GRing.Theory Num.Theory.
Local Open Scope ring_scope.

Section Range.
Variable R : realFieldType.
Variables (m n : nat) (A : 'M[R]_(m, n)) (b y : 'cV[R]_m) (C : 'M[R]_n).

Lemma mud_unique_range mu x w : posdef C -> x = mu + C *m A^T *m w ->
  A *m x + b = y -> x = mudx A b y mu C.
Proof.
move=> pC ex hx; have [sC _] := pC; have uC := posdef_unit pC.
have bx : best_fit A b y x by apply: normal_best; rewrite hx subrr mulmx0.
have h := best_same (mud_normal A b y mu pC) bx.
set z := mudx A b y mu C in h *.
pose g := pinv (predcov A C) *m resid A b y mu.
have ez : z = mu + C *m A^T *m g by rewrite /z /mudx gainE /g !mulmxA.
have ed : x - z = C *m A^T *m (w - g).
  by rewrite ex ez opprD addrACA subrr add0r mulmxBr.
apply/eqP; rewrite -subr_eq0; apply/eqP/(posdef_quad_eq0 (posdef_inv pC)).
rewrite /quad {1}ed !trmx_mul trmxK sC.
rewrite -[_ *m (A *m C) *m _]mulmxA -[A *m C *m _]mulmxA mulmxV // mulmx1.
by rewrite -mulmxA mulmxBr h subrr mulmx0 mxE.
Qed.

Lemma rowstep_range k x : exists w, rowstep A b y C k x = x + C *m A^T *m w.
Proof.
rewrite /rowstep /mudx gainE rowE trmx_mul.
set P := pinv _; set r := resid _ _ _ _.
by exists ((delta_mx 0 k)^T *m P *m r); rewrite !mulmxA.
Qed.

(** The step leaves equation [l] alone when the two rows are C-orthogonal. *)
Lemma rowstep_orth k l x : row l A *m C *m (row k A)^T = 0 ->
  row l A *m rowstep A b y C k x = row l A *m x.
Proof.
by move=> h; rewrite /rowstep /mudx gainE mulmxDr !mulmxA h !mul0mx addr0.
Qed.
End Range.

Section Energy.
Variable R : realFieldType.
Variables (m n : nat) (A : 'M[R]_(m, n)) (b y : 'cV[R]_m) (C : 'M[R]_n).
Variables (a vb vy : nd R).
Hypotheses (ha : holds2 a A) (wa : nd_wf a) (hb : holds_col vb b) (hy : holds_col vy y).
Notation satisfies := (satisfies A b y).
Notation rowstep := (rowstep A b y C).
Notation epochs := (epochs A b y C).

(** Sum of the squared step lengths of a chain. *)
Definition travelled (vs : seq 'cV[R]_n) : R :=
  \sum_(j < (size vs).-1) mahal C (nth 0 vs j) (nth 0 vs j.+1).

Lemma mahal_sym (u v : 'cV[R]_n) : mahal C u v = mahal C v u.
Proof. by rewrite /mahal -opprB quadNv. Qed.

Lemma mahalxx (u : 'cV[R]_n) : mahal C u u = 0.
Proof. by rewrite /mahal subrr quad0. Qed.

Lemma epochs_energy E idx x vs xs : posdef C -> valid_schedule m idx ->
  epochs E idx x vs ->
  (forall i k, i \in idx -> names_row i k -> satisfies k xs) ->
  forall j, (j < size vs)%N ->
  mahal C xs x = mahal C xs (nth 0 vs j)
    + \sum_(i < j) mahal C (nth 0 vs i) (nth 0 vs i.+1).
Proof.
move=> pC V ep hs; have [sz x0 _ _] := ep.
elim=> [|j IH] hj; first by rewrite big_ord0 addr0 x0.
rewrite (IH (ltnW hj)) big_ord_recr /= [in RHS]addrA [in RHS]addrAC; congr (_ + _).
have [e|[i [k [hi hk e]]]] := epochs_step V ep hj.
  by rewrite e mahalxx addr0.
by rewrite e (rowstep_pyth (nth 0 vs j) pC (hs _ _ hi hk)).
Qed.

Theorem C70_chain_energy idx vm (x : 'cV[R]_n) dcov e xs :
  posdef C -> valid_schedule m idx -> holds1 vm x ->
  (forall i k, i \in idx -> names_row i k -> satisfies k xs) ->
  exists chain vs,
  [/\ iterate a vb vy vm (Some (Dmx C)) dcov e (Some idx) = Ok chain, tracks chain vs,
      nth 0 vs 0 = x
    & travelled vs + mahal C xs (last 0 vs) = mahal C xs x].
Proof.
move=> pC V hx hs.
have [chain [vs [e1 t ep _ _]]] := iterate_ok C ha wa hb hy dcov e V hx.
exists chain, vs; split=> //; first by case: ep.
have s0 : (0 < size vs)%N.
  by case: ep => -> _ _ _; case: (e) => [[|k]|k] //=; rewrite muln_gt0 //= ?leq_max.
rewrite (epochs_energy pC V ep hs (j := (size vs).-1)) ?ltn_predL //.
by rewrite nth_last addrC.
Qed.

Lemma epochs_range E idx x vs : valid_schedule m idx -> epochs E idx x vs ->
  forall j, (j < size vs)%N -> exists w, nth 0 vs j = x + C *m A^T *m w.
Proof.
move=> V ep; have [sz x0 _ _] := ep; elim=> [|j IH] hj.
  by exists 0; rewrite mulmx0 addr0.
have [w hw] := IH (ltnW hj).
have [e|[i [k [hi hk e]]]] := epochs_step V ep hj; first by exists w; rewrite e.
have [w' hw'] := rowstep_range A b y C k (nth 0 vs j).
by exists (w + w'); rewrite e hw' hw mulmxDr addrA.
Qed.

Lemma satisfies_all z : (forall k, satisfies k z) <-> A *m z + b = y.
Proof.
split=> [h|h k]; last by rewrite /IterProps.satisfies -h mxDE.
by apply/matrixP=> i j; rewrite (ord1 j) mxDE; exact: h.
Qed.

(** A chain point that solves the whole system is the answer the direct solver gives
    from the starting mean, the solution closest to it, and the chain stays there. *)
Theorem C71_solving_point_is_mud idx vm (x : 'cV[R]_n) dcov e :
  posdef C -> valid_schedule m idx -> holds1 vm x ->
  exists chain vs,
  [/\ iterate a vb vy vm (Some (Dmx C)) dcov e (Some idx) = Ok chain, tracks chain vs
    & forall j, (j < size vs)%N -> A *m nth 0 vs j + b = y ->
      [/\ exists2 s, mud_sol a (Some vb) (Some vy) (Some vm) (Some (Dmx C)) None = Ok s
            & holds1 (nd_of_sol s) (nth 0 vs j),
          (forall x', A *m x' + b = y -> mahal C x (nth 0 vs j) <= mahal C x x')
        & forall i, (j <= i < size vs)%N -> nth 0 vs i = nth 0 vs j]].
Proof.
move=> pC V hx.
have [chain [vs [e1 t ep _ _]]] := iterate_ok C ha wa hb hy dcov e V hx.
exists chain, vs; split=> // j hj hz.
have [w hw] := epochs_range V ep hj.
have ez := mud_unique_range pC hw hz; split.
- have [hb1 hb2] := hb; have [hy1 hy2] := hy.
  have [p [ei ip _]] := C21_init_inputs C (1%:M : 'M_m) 1 ha hb2 hy2 hx.
  have ei' : lin_prob a (Some vb) (Some vy) (Some vm) (Some (Dmx C)) None None = Ok p.
    have [sa hA] := ha; have ea : dmx_of a = Dmx A.
      by rewrite /dmx_of /dim sa /=; apply: dbuildE => ? ?; rewrite hA.
    by rewrite -ei /lin_prob /lgp_init /ndim sa eqxx; cbn [rbind]; rewrite ea.
  eexists; first by rewrite /mud_sol ei' [rbind (Ok p) _]/= (mud_answer ip ltr01).
  rewrite /= /shape_like -ez; case: ifP => _ /=.
    split=> [|i]; first by rewrite size_map size_iota muln1.
    rewrite (nth_map 0%N) ?size_iota ?muln1 // nth_iota ?muln1 // add0n divn1 modn1.
    by rewrite -[0%N]/(nat_of_ord (ord0 : 'I_1)) dgetE.
  split=> [|i]; first by rewrite size_map size_iota muln1.
  rewrite (nth_map 0%N) ?size_iota ?muln1 // nth_iota ?muln1 // add0n divn1 modn1.
  by rewrite -[0%N]/(nat_of_ord (ord0 : 'I_1)) dgetE.
- move=> x' hx'; rewrite ez; have bx : best_fit A b y x'.
    by apply: normal_best; rewrite hx' subrr mulmx0.
  by have [] := mud_closest x pC bx.
- move=> i /andP [ji]; rewrite -(subnKC ji); elim: (i - j)%N => [|d IH] hi.
    by rewrite addn0.
  rewrite addnS in hi *; have := epochs_step V ep hi.
  rewrite (IH (ltnW hi)) => -[//|[i' [k [hi' hk ->]]]].
  have sat : satisfies k (nth 0 vs j) by case: (satisfies_all (nth 0 vs j)) => _ h; exact: h hz k.
  have [_ hlt] := rowstep_le (nth 0 vs j) pC sat.
  case: (eqVneq (rowstep k (nth 0 vs j)) (nth 0 vs j)) => // /eqP ne.
  by have := hlt ne; rewrite mahalxx ltNge (posdef_quad _ (posdef_inv pC)).
Qed.

(** For a consistent set of scheduled equations: the chain ends where it started
    exactly when its start already solved all of them. *)
Theorem C72_chain_returns_iff_solved idx vm (x : 'cV[R]_n) dcov e xs :
  posdef C -> valid_schedule m idx -> holds1 vm x ->
  (forall i k, i \in idx -> names_row i k -> satisfies k xs) ->
  (forall i k, i \in idx -> names_row i k -> row k A != 0) ->
  exists chain vs,
  [/\ iterate a vb vy vm (Some (Dmx C)) dcov e (Some idx) = Ok chain, tracks chain vs
    & last 0 vs = x <-> (forall i k, i \in idx -> names_row i k -> satisfies k x)].
Proof.
move=> pC V hx hs nz.
have [chain [vs [e1 t ep _ _]]] := iterate_ok C ha wa hb hy dcov e V hx.
exists chain, vs; split=> //.
move: ep; set E := (if e is Posz _ then _ else _) => ep.
have E0 : (0 < E)%N by rewrite /E; case: (e) => [[|k]|k] //=; rewrite leq_max.
have s0 : (0 < size vs)%N by case: ep => -> _ _ _; rewrite muln_gt0 E0.
have pC' := posdef_inv pC.
have ener := epochs_energy pC V ep hs.
have en := ener (size vs).-1; rewrite ltn_predL nth_last in en.
split=> [hl i k hi hk|sol].
  have := en s0; rewrite hl => /esym/eqP; rewrite -subr_eq0 addrC addrA addNr add0r => sum0.
  have still j : (j < size vs)%N -> nth 0 vs j = x.
    elim: j => [|j IH] hj; first by case: ep.
    have := sum0; rewrite psumr_eq0 => [/allP h|j' _]; last exact: posdef_quad.
    have hj' : (j < (size vs).-1)%N by rewrite -ltnS prednK.
    have := h (Ordinal hj') (mem_index_enum _) => /eqP /(posdef_quad_eq0 pC') /eqP.
    by rewrite subr_eq0 => /eqP ->; rewrite IH // ltnW.
  have hidx : (seq.index i idx < size idx)%N by rewrite index_mem.
  have [sz x0 f _] := ep.
  have hk' : names_row (nth 0 idx (seq.index i idx)) k by rewrite nth_index.
  have bound : ((seq.index i idx).+1 < size vs)%N.
    by rewrite sz (@leq_trans (size idx).+1) ?ltnS // leq_pmull.
  have := f 0%N _ _ E0 hidx hk'; rewrite mul0n !add0n still // still ?(ltnW bound) // => ->.
  by apply: rowstep_sat => //; apply: nz hk.
have still j : (j < size vs)%N -> nth 0 vs j = x.
  elim: j => [|j IH] hj; first by case: ep.
  have [->|[i [k [hi hk ->]]]] := epochs_step V ep hj; first by rewrite IH // ltnW.
  rewrite IH ?(ltnW hj) //.
  have [_ hlt] := rowstep_le x pC (sol _ _ hi hk).
  case: (eqVneq (rowstep k x) x) => // /eqP ne.
  by have := hlt ne; rewrite mahalxx ltNge (posdef_quad _ pC').
by rewrite -nth_last still // ltn_predL.
Qed.

(** Rows that are pairwise orthogonal in the cov inner product: one epoch solves
    every scheduled equation. *)
Theorem C73_orthogonal_rows_one_epoch idx vm (x : 'cV[R]_n) dcov :
  posdef C -> valid_schedule m idx -> holds1 vm x ->
  (forall i k, i \in idx -> names_row i k -> row k A != 0) ->
  (forall k l : 'I_m, k != l -> row k A *m C *m (row l A)^T = 0) ->
  exists chain vs,
  [/\ performEpoch a vb vy vm (Some (Dmx C)) dcov (Some idx) = Ok chain, tracks chain vs
    & forall i k, i \in idx -> names_row i k -> satisfies k (last 0 vs)].
Proof.
move=> pC V hx nz orth.
have [chain [vs [e1 t [sz f]]]] := performEpoch_ok C ha wa hb hy dcov V hx.
exists (vm :: chain), (x :: vs); split=> // i k hi hk.
have keep j : (j <= size idx)%N -> forall i k, i \in take j idx -> names_row i k ->
    satisfies k (nth 0 (x :: vs) j).
  elim: j => [|j IH] hj i' k'; first by rewrite take0.
  rewrite (take_nth 0) // mem_rcons inE => hi' hk'.
  have [l hl] := V _ (mem_nth 0 hj).
  rewrite (f _ _ hj hl).
  case: (eqVneq k' l) => [->|ne].
    by apply: rowstep_sat => //; apply: nz hl; apply: mem_nth.
  have {}hi' : i' \in take j idx.
    case/orP: hi' => // /eqP ei; move: hk'; rewrite ei /names_row hl => -[] /val_inj el.
    by rewrite el eqxx in ne.
  have := IH (ltnW hj) _ _ hi' hk'; rewrite -!(row_eq A b y).
  by rewrite (rowstep_orth _ _ _ (orth _ _ ne)).
rewrite -nth_last sz /=; apply: (keep (size idx)) hk => //.
by rewrite take_size.
Qed.

End Energy.
