(** Properties of the grids and of plot_dist (C66, C97). *)
Set Warnings "-notation-overridden,-ambiguous-paths".
From mathcomp Require Import all_ssreflect all_algebra.
From Coq Require Import String.
From Verif Require Import Py Nd LinAlg Dmx LgpModel UtilModel UtilModel2 PlotModel.
Set Implicit Arguments. Unset Strict Implicit. Unset Printing Implicit Defensive.
Import Order.Theory GRing.Theory Num.Theory.
Local Open Scope ring_scope.

(** ** Specification: index tuples *)
(** All tuples (i_1, ..., i_d) with i_k < n_k. *)
Fixpoint tuples (ns : seq nat) : seq (seq nat) :=
  if ns is n :: ns' then flatten [seq [seq i :: t | t <- tuples ns'] | i <- iota 0 n] else [:: [::]].

(** Coordinate number k after the exchange of the first two, among d. *)
Definition other (d k : nat) : nat :=
  if (1 < d)%N then (if k == 0 then 1 else if k == 1 then 0 else k)%N else k.

Lemma size_tuples ns : size (tuples ns) = prodn ns.
Proof.
elim: ns => //= n ns ih; rewrite /prodn /= -/(prodn ns).
rewrite -[in RHS](size_iota 0 n); elim: (iota 0 n) => //= i s h.
by rewrite size_cat size_map ih h mulSn.
Qed.

Lemma mem_tuples ns t : (t \in tuples ns) = (size t == size ns) && all (fun p => p.1 < p.2)%N (zip t ns).
Proof.
elim: ns t => [|n ns ih] [|i t] //=.
  by apply/negbTE/negP => /flatten_mapP [j _ /mapP[t _]].
apply/flatten_mapP/idP => [[j hj /mapP[u hu [-> ->]]]|].
  by move: hu; rewrite ih eqSS => /andP[-> ->]; rewrite mem_iota in hj; rewrite andbT.
rewrite eqSS => /andP[e /andP[lt al]]; exists i; first by rewrite mem_iota.
by apply/mapP; exists t => //; rewrite ih e al.
Qed.

Lemma tuple_size ns t : t \in tuples ns -> size t = size ns.
Proof. by rewrite mem_tuples => /andP[/eqP]. Qed.

Lemma nth_tuple ns t k : t \in tuples ns -> (k < size ns)%N -> (nth 0%N t k < nth 0%N ns k)%N.
Proof.
rewrite mem_tuples => /andP[/eqP e /allP al] hk.
have : (nth (0, 0)%N (zip t ns) k) \in zip t ns by apply: mem_nth; rewrite size_zip e minnn.
by move/al; rewrite nth_zip.
Qed.

Lemma uniq_tuples ns : uniq (tuples ns).
Proof.
elim: ns => //= n ns ih; move: (iota 0 n) (iota_uniq 0 n) => s.
elim: s => //= i s h /andP[ni us]; rewrite cat_uniq h // andbT map_inj_uniq ?ih /=; last by move=> a b [].
apply/hasPn => t /flatten_mapP[j js /mapP[u _ ->]].
by apply/negP => /mapP[w _ [e _]]; rewrite e (negbTE ni) // in js; rewrite -e js in ni.
Qed.

Lemma prodn_cons n ns : prodn (n :: ns) = (n * prodn ns)%N.
Proof. by rewrite /prodn /=. Qed.

(** Flat positions enumerate the tuples in order. *)
Lemma unravel_tuples ns : [seq unravel ns q | q <- iota 0 (prodn ns)] = tuples ns.
Proof.
elim: ns => [//|n ns ih]; rewrite prodn_cons.
set N := prodn ns in ih *.
have E m a : [seq unravel (n :: ns) q | q <- iota (a * N) (m * N)] =
  flatten [seq [seq i :: t | t <- tuples ns] | i <- iota a m].
  elim: m a => [//|m h] a; rewrite mulSn iotaD map_cat -[(a * N + N)%N]addnC -mulSn h /=; congr (_ ++ _).
  rewrite -ih -!map_comp -{1}[(a * N)%N]addn0 iotaDl -map_comp; apply/eq_in_map => q.
  rewrite mem_iota add0n /= -/N => hq; rewrite divnMDl; last by apply: leq_trans hq.
  by rewrite divn_small // addn0 modnMDl modn_small.
by have := E n 0%N; rewrite mul0n => ->.
Qed.

Lemma ravelK ns t : t \in tuples ns -> unravel ns (ravel_index ns t) = t /\ (ravel_index ns t < prodn ns)%N.
Proof.
elim: ns t => [|n ns ih] t; first by move/tuple_size; case: t.
rewrite mem_tuples; case: t => [|i t] //=; rewrite eqSS => /andP[e /andP[lt al]].
have /ih [h1 h2] : t \in tuples ns by rewrite mem_tuples e al.
have p0 : (0 < prodn ns)%N by apply: leq_trans h2.
rewrite divnMDl // divn_small // addn0 modnMDl modn_small // h1; split=> //.
apply: (@leq_trans (i * prodn ns + prodn ns)); first by rewrite ltn_add2l.
by rewrite addnC -mulSn leq_mul2r lt orbT.
Qed.

Lemma unravelK ns q : (q < prodn ns)%N -> ravel_index ns (unravel ns q) = q /\ unravel ns q \in tuples ns.
Proof.
move=> hq; split; last first.
  by rewrite -unravel_tuples; apply: map_f; rewrite mem_iota.
elim: ns q hq => [[]//|n ns ih] q /=; rewrite ?prodn_cons => hq.
have p0 : (0 < prodn ns)%N by case: (prodn ns) hq => //; rewrite muln0.
by rewrite ih ?ltn_mod // -divn_eq.
Qed.

(** ** The exchange of the first two entries, and reversal *)
Lemma swap01K s : swap01 (swap01 s) = s. Proof. by case: s => [|x [|y s]]. Qed.
Lemma size_swap01 s : size (swap01 s) = size s. Proof. by case: s => [|x [|y s]]. Qed.
Lemma nth_swap01 s k : nth 0%N (swap01 s) k = nth 0%N s (other (size s) k).
Proof. by case: s => [|x [|y s]] //; rewrite /other; case: k => [|[|k]]. Qed.
Lemma otherK d k : other d (other d k) = k.
Proof. by rewrite /other; case: (1 < d)%N => //; case: k => [|[|k]]. Qed.
Lemma other_lt d k : (k < d)%N -> (other d k < d)%N.
Proof. by rewrite /other; case: d k => [|[|d]] [|[|k]]. Qed.

Lemma swap_tuples ns : perm_eq [seq swap01 t | t <- tuples (swap01 ns)] (tuples ns).
Proof.
apply: uniq_perm; [|exact: uniq_tuples|].
  by rewrite map_inj_uniq ?uniq_tuples //; apply: can_inj swap01K.
have L ms t : t \in tuples ms -> swap01 t \in tuples (swap01 ms).
  rewrite !mem_tuples !size_swap01 => /andP[e h]; rewrite e /=.
  case: t ms e h => [|a [|b t]] [|n [|m ms]] //= _.
  by rewrite andbCA.
move=> t; apply/mapP/idP => [[u hu ->]|h].
  by have := L _ _ hu; rewrite swap01K.
by exists (swap01 t); rewrite ?swap01K // L.
Qed.

Lemma rev_tuples ns : perm_eq [seq rev t | t <- tuples (rev ns)] (tuples ns).
Proof.
apply: uniq_perm; [|exact: uniq_tuples|].
  by rewrite map_inj_uniq ?uniq_tuples //; apply: can_inj revK.
have L ms t : t \in tuples ms -> rev t \in tuples (rev ms).
  rewrite !mem_tuples !size_rev => /andP[/eqP e h] /=; rewrite e eqxx /=.
  by rewrite -rev_zip // all_rev.
move=> t; apply/mapP/idP => [[u hu ->]|h].
  by have := L _ _ hu; rewrite revK.
by exists (rev t); rewrite ?revK // L.
Qed.

Section Plot.
Variable R : realFieldType.
Notation nd := (nd R).

Lemma prodn_swap ns : prodn (swap01 ns) = prodn ns.
Proof. by case: ns => [|n [|m ns]] //; rewrite /prodn /= mulnCA. Qed.
Lemma prodn_rev ns : prodn (rev ns) = prodn ns.
Proof. by have := perm_size (rev_tuples ns); rewrite size_map !size_tuples. Qed.

(** Sums over flat positions are sums over tuples. *)
Lemma sum_tuples ns (P : pred (seq nat)) (F : seq nat -> R) :
  \sum_(q <- iota 0 (prodn ns) | P (unravel ns q)) F (unravel ns q) = \sum_(t <- tuples ns | P t) F t.
Proof. by rewrite -(unravel_tuples ns) big_map. Qed.

Lemma marginE (a : nd) k i : (i < nth 0%N (Nd.shape a) k)%N ->
  nth 0 (margin a k) i =
  \sum_(t <- tuples (Nd.shape a) | nth 0%N t k == i) nth 0 (data a) (ravel_index (Nd.shape a) t).
Proof.
move=> hi; rewrite /margin (nth_map 0%N) ?size_iota // nth_iota // add0n -sum_tuples.
rewrite big_seq_cond [RHS]big_seq_cond; apply: eq_bigr => q /andP[].
by rewrite mem_iota add0n => /andP[_ hq] _; have [-> _] := unravelK hq.
Qed.

Lemma size_margin (a : nd) k : size (margin a k) = nth 0%N (Nd.shape a) k.
Proof. by rewrite size_map size_iota. Qed.

Lemma margin_transpose (a : nd) k : (k < size (Nd.shape a))%N ->
  margin (transpose a) k = margin a (size (Nd.shape a) - k.+1).
Proof.
move=> hk; apply: (@eq_from_nth _ 0).
  by rewrite !size_margin /transpose /= nth_rev.
move=> i; rewrite size_margin => hi.
have hi' : (i < nth 0%N (Nd.shape a) (size (Nd.shape a) - k.+1))%N by move: hi; rewrite /= nth_rev.
rewrite !marginE // [LHS]/= -(perm_big _ (rev_tuples (Nd.shape a))) big_map /=.
rewrite big_seq_cond [RHS]big_seq_cond.
have st t : t \in tuples (rev (Nd.shape a)) -> size t = size (Nd.shape a).
  by move/tuple_size; rewrite size_rev.
under eq_bigl => t.
  have -> : (t \in tuples (rev (Nd.shape a))) && (nth 0%N t k == i) =
    (t \in tuples (rev (Nd.shape a))) && (nth 0%N (rev t) (size (Nd.shape a) - k.+1) == i).
    case ht: (t \in _) => //=; rewrite nth_rev ?(st _ ht); last by rewrite ltn_subrL /= (leq_ltn_trans (leq0n k) hk).
    by rewrite subnSK // subKn // ltnW.
  over.
apply: eq_bigr => t /andP[ht _]; have [h1 h2] := ravelK ht.
rewrite (nth_map 0%N) ?size_iota -?(prodn_rev (Nd.shape a)) // nth_iota // add0n h1.
by [].
Qed.

(** ** Ticks *)
(** [aff - 1] equally spaced values from lo on, hi excluded. *)
Definition tick (lo hi : R) (aff i : nat) : R := lo + i%:R * ((hi - lo) / (aff.-1)%:R).

Lemma ticksE lo hi (aff : nat) : ticks lo hi aff = Ok [seq tick lo hi aff i | i <- iota 0 aff.-1].
Proof.
rewrite /ticks /= size_map size_iota -map_take; congr (Ok (map _ _)).
by rewrite take_iota (minn_idPl (leq_pred _)).
Qed.

Lemma ticks_neg lo hi (n : nat) : ticks lo hi (Negz n) = Err ValueError :> res (seq R).
Proof. by []. Qed.

(** The grid point with the index tuple t. *)
Definition grid_point (dom : seq (R * R)) (aff : nat) (t : seq nat) : seq R :=
  [seq tick (nth (0, 0) dom k).1 (nth (0, 0) dom k).2 aff (nth 0%N t k) | k <- iota 0 (size dom)].

Lemma swap_nseq d n : swap01 (nseq d n) = nseq d n.
Proof. by case: d => [|[|d]]. Qed.
Lemma rev_nseq d (n : nat) : rev (nseq d n) = nseq d n.
Proof.
have /all_pred1P : all (pred1 n) (rev (nseq d n)) by rewrite all_rev all_pred1_nseq.
by rewrite size_rev size_nseq.
Qed.

Lemma all_ticks dom (aff : nat) : rmapM (fun p : R * R => ticks p.1 p.2 aff) dom =
  Ok [seq [seq tick p.1 p.2 aff i | i <- iota 0 aff.-1] | p <- dom].
Proof. by elim: dom => [//|p dom ih]; rewrite /rmapM -/rmapM ticksE ih. Qed.

Lemma meshE dom (aff : nat) :
  meshgrid [seq [seq tick p.1 p.2 aff i | i <- iota 0 aff.-1] | p <- dom] =
  [seq Nd (nseq (size dom) aff.-1)
     [seq tick (nth (0, 0) dom k).1 (nth (0, 0) dom k).2 aff (nth 0%N (swap01 t) k)
     | t <- tuples (nseq (size dom) aff.-1)] | k <- iota 0 (size dom)].
Proof.
rewrite /meshgrid.
have -> : [seq size x | x <- [seq [seq tick p.1 p.2 aff i | i <- iota 0 aff.-1] | p <- dom]] = nseq (size dom) aff.-1.
  by elim: dom => //= p dom ->; rewrite size_map size_iota.
rewrite swap_nseq [size (map _ _)]size_map; apply/eq_in_map => k; rewrite mem_iota add0n => /andP[_ hk].
congr Nd; rewrite -(unravel_tuples (nseq _ _)) -map_comp; apply/eq_in_map => q; rewrite mem_iota add0n => /andP[_ hq] /=.
have [_ ht] := unravelK hq.
have hb : (nth 0%N (swap01 (unravel (nseq (size dom) aff.-1) q)) k < aff.-1)%N.
  rewrite nth_swap01 (tuple_size ht) size_nseq.
  by have := nth_tuple ht (k := other (size dom) k); rewrite size_nseq nth_nseq other_lt //; exact.
by rewrite (nth_map (0, 0)) // (nth_map 0%N) ?size_iota // nth_iota.
Qed.

(** The points of the grid, in the order of the columns of grid_points. *)
Definition grid_columns dom (aff : nat) : seq (seq R) :=
  [seq grid_point dom aff (swap01 t) | t <- tuples (nseq (size dom) aff.-1)].

Lemma buildE dom (aff : nat) : dom != [::] ->
  exists mesh grid, [/\ build_nd_mesh_grid dom aff = Ok (mesh, grid), size mesh = size dom,
    forall k, (k < size dom)%N -> Nd.shape (nth (nd1 [::]) mesh k) = nseq (size dom) aff.-1,
    (forall k, (k < size dom)%N -> data (nth (nd1 [::]) mesh k) = nth [::] grid k) /\ size grid = size dom &
    points grid = grid_columns dom aff].
Proof.
move=> d0; rewrite /build_nd_mesh_grid all_ticks; cbn [rbind]; rewrite meshE.
set mesh := [seq Nd _ _ | k <- _].
have sm : size mesh = size dom by rewrite size_map size_iota.
exists mesh, [seq data m | m <- mesh]; split=> //.
- by case: mesh sm => //; case: (dom) d0.
- by move=> k hk; rewrite (nth_map 0%N) ?size_iota.
- by rewrite size_map; split=> // k hk; rewrite (nth_map (nd1 [::])) ?sm.
rewrite /points /grid_columns.
have sd : (0 < size dom)%N by case: (dom) d0.
have -> : size (head [::] [seq data m | m <- mesh]) = size (tuples (nseq (size dom) aff.-1)).
  by rewrite -nth0 (nth_map (nd1 [::])) ?sm // (nth_map 0%N) ?size_iota // size_map.
apply: (@eq_from_nth _ [::]); first by rewrite !size_map size_iota.
move=> q; rewrite size_map size_iota => hq.
rewrite (nth_map 0%N) ?size_iota // nth_iota // add0n [RHS](nth_map [::]) //.
rewrite -!map_comp; apply/eq_in_map => k; rewrite mem_iota add0n => /andP[_ hk] /=.
by rewrite (nth_map [::]).
Qed.

(** C66: build_nd_mesh_grid enumerates the product grid: the columns of grid_points are the
    points with coordinates lo_k + i_k (hi_k - lo_k)/(aff - 1), each index tuple
    i_k < aff - 1 exactly once; the rows of grid_points are the raveled arrays of the mesh,
    which have aff - 1 entries along each of their d axes. *)
Theorem C66_grid dom (aff : nat) : dom != [::] ->
  exists mesh grid, [/\ build_nd_mesh_grid dom aff = Ok (mesh, grid), size mesh = size dom,
    forall k, (k < size dom)%N -> Nd.shape (nth (nd1 [::]) mesh k) = nseq (size dom) aff.-1,
    (forall k, (k < size dom)%N -> data (nth (nd1 [::]) mesh k) = nth [::] grid k) /\ size grid = size dom &
    perm_eq (points grid) [seq grid_point dom aff t | t <- tuples (nseq (size dom) aff.-1)]].
Proof.
move=> d0; have [mesh [grid [h1 h2 h3 h4 h5]]] := buildE aff d0; exists mesh, grid; split=> //.
rewrite h5 /grid_columns map_comp; apply: perm_map.
by have := swap_tuples (nseq (size dom) aff.-1); rewrite swap_nseq.
Qed.

(** C66: no intervals, or a negative number of points: ValueError. *)
Theorem C66_grid_errors dom (aff : int) : dom = [::] \/ aff < 0 ->
  build_nd_mesh_grid dom aff = Err ValueError :> res (seq nd * seq (seq R)).
Proof.
rewrite /build_nd_mesh_grid => -[-> //|]; case: aff => // n _; case: dom => [//|p dom].
by rewrite /rmapM -/rmapM ticks_neg.
Qed.

(** C66: on proper intervals every grid point lies in the half-open box. *)
Theorem C66_grid_inside dom (aff : nat) t k : all (fun p : R * R => p.1 < p.2) dom ->
  t \in tuples (nseq (size dom) aff.-1) -> (k < size dom)%N ->
  (nth (0, 0) dom k).1 <= nth 0 (grid_point dom aff t) k < (nth (0, 0) dom k).2.
Proof.
move=> al ht hk; have /(allP al) lt : nth (0, 0) dom k \in dom by apply: mem_nth.
rewrite (nth_map 0%N) ?size_iota // nth_iota // add0n /tick.
have := nth_tuple ht (k := k); rewrite size_nseq nth_nseq hk => /(_ isT).
move: (nth _ t k) => i hi; set p := nth _ dom k in lt *.
have L0 : (0 : R) < aff.-1%:R by rewrite ltr0n (leq_ltn_trans (leq0n i)).
have d0 : 0 < (p.2 - p.1) / aff.-1%:R by rewrite divr_gt0 ?subr_gt0.
rewrite ler_addl mulr_ge0 ?ler0n ?ltW //= -ltr_subr_addl.
rewrite -[ltRHS](@divfK _ (aff.-1%:R)) ?gt_eqF // [ltRHS]mulrC ltr_pmul2r // ltr_nat //.
Qed.

(** ** plot_dist *)
Variable pdf : seq (seq R) -> res (seq (seq R)).
Variable kde : seq (seq R) -> res (seq R).
Notation plot_dist := (plot_dist pdf kde).

(** The distribution has the density f: the product of the values of pdf, the value of kde. *)
Definition has_density (src : string) (f : seq R -> R) : Prop :=
  (src = "pdf"%string /\ forall pts, exists V, pdf pts = Ok V /\ [seq \prod_(x <- r) x | r <- V] = [seq f p | p <- pts]) \/
  (src = "kde"%string /\ forall pts, kde pts = Ok [seq f p | p <- pts]).

(** Sum of the density over the grid points whose coordinate number c is the i-th tick. *)
Definition slice_sum dom (aff : nat) (f : seq R -> R) (c i : nat) : R :=
  \sum_(t <- tuples (nseq (size dom) aff.-1) | nth 0%N t c == i) f (grid_point dom aff t).

(** The coordinate whose marginal the code computes for parameter number k of d. *)
Definition drawn (src : string) (d k : nat) : nat :=
  if (src =? "pdf")%string then other d k else other d (d - k.+1).

Lemma margin_grid dom (aff : nat) f c : (c < size dom)%N ->
  margin (Nd (nseq (size dom) aff.-1) [seq f p | p <- grid_columns dom aff]) c =
  [seq slice_sum dom aff f (other (size dom) c) i | i <- iota 0 aff.-1].
Proof.
move=> hc; set d := size dom in hc *; set ns := nseq d aff.-1.
have sc : nth 0%N ns c = aff.-1 by rewrite nth_nseq hc.
apply: (@eq_from_nth _ 0); first by rewrite size_margin size_map size_iota /= sc.
move=> i; rewrite size_margin /= sc => hi; rewrite marginE /= ?sc // [RHS](nth_map 0%N) ?size_iota // nth_iota // add0n.
rewrite /slice_sum -/d -/ns.
have P : perm_eq [seq swap01 t | t <- tuples ns] (tuples ns).
  by have := swap_tuples ns; rewrite /ns swap_nseq.
rewrite -(perm_big _ P) big_map big_seq_cond [RHS]big_seq_cond.
apply: eq_big => [t|t /andP[ht _]].
  by case ht: (t \in _) => //=; rewrite nth_swap01 (tuple_size ht) size_nseq.
have hs : swap01 t \in tuples ns by rewrite -(perm_mem P) map_f.
have [h1 h2] := ravelK hs.
rewrite (nth_map [::]) ?size_map ?size_tuples // (nth_map [::]) ?size_tuples // -/ns.
by rewrite -(unravel_tuples ns) (nth_map 0%N) ?size_iota // nth_iota // add0n h1 swap01K.
Qed.

(** C66: for aff >= 3 plot_dist draws, against the aff - 1 ticks of parameter k, the sums of
    the density over slices of the grid divided by their Riemann sum; the slices are those of
    coordinate [drawn src d k], which is not always k. *)
Theorem C66_plot_dist dom k src (aff : nat) f : (k < size dom)%N -> (2 < aff)%N -> has_density src f ->
  let iv := nth (0, 0) dom k in
  let S := slice_sum dom aff f (drawn src (size dom) k) in
  plot_dist dom k src aff =
  Ok ([seq tick iv.1 iv.2 aff i | i <- iota 0 aff.-1],
      [seq S i / (\sum_(j <- iota 0 aff.-1) S j * (`|iv.2 - iv.1| / aff.-1%:R)) | i <- iota 0 aff.-1]).
Proof.
move=> hk ha hf iv S; set d := size dom in hk *.
have d0 : dom != [::] by case: (dom) @d hk.
have [mesh [grid [h1 h2 h3 h4 h5]]] := buildE aff d0.
rewrite /PlotModel.plot_dist h1; cbn [rbind]; rewrite /py_index hk; cbn [rbind].
rewrite -/iv ticksE; cbn [rbind fst snd]; rewrite h3 // h5 -/d.
set ns := nseq d aff.-1.
have szv : size [seq f p | p <- grid_columns dom aff] = prodn ns by rewrite !size_map size_tuples.
have re : reshape1 [seq f p | p <- grid_columns dom aff] ns = Ok (Nd ns [seq f p | p <- grid_columns dom aff]).
  by rewrite /reshape1 szv eqxx.
set py := (if (src =? "pdf")%string then _ else _).
have -> : py = Ok [seq S i | i <- iota 0 aff.-1].
  rewrite /py /S /drawn; case: hf => -[-> hf].
    have -> : ("pdf" =? "pdf")%string = true by [].
    have [V [-> eV]] := hf (grid_columns dom aff).
    by cbn [rbind]; rewrite eV re; cbn [rbind]; rewrite margin_grid.
  have -> : ("kde" =? "pdf")%string = false by []; have -> : ("kde" =? "kde")%string = true by [].
  rewrite hf; cbn [rbind]; rewrite re; cbn [rbind]; rewrite margin_transpose [Nd.shape _]/= size_nseq // margin_grid //.
  by rewrite ltn_subrL /= (leq_ltn_trans (leq0n k) hk).
cbn [rbind]; rewrite size_map size_iota ltnNge -ltnS prednK; last by apply: leq_trans ha.
rewrite ha; rewrite -map_comp; congr (Ok (_, _)); apply/eq_map => i; congr (_ / _).
have L2 : (1 < aff.-1)%N by case: (aff) ha.
rewrite big_map; apply: eq_bigr => j _; congr (_ * _).
have T j' : (j' < aff.-1)%N -> nth 0 [seq tick iv.1 iv.2 aff i0 | i0 <- iota 0 aff.-1] j' = tick iv.1 iv.2 aff j'.
  by move=> hj; rewrite (nth_map 0%N) ?size_iota // nth_iota.
rewrite (T 1%N L2) (T 0%N (ltn_trans (ltnSn 0) L2)) /tick mul0r addr0 mul1r addrC addKr normrM normfV; congr (_ * _^-1).
by rewrite ger0_norm ?ler0n.
Qed.
End Plot.
