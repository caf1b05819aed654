(** Property C151: the estimates of a DensityProblem do not depend on the order of the samples. *)
Set Warnings "-notation-overridden,-ambiguous-paths".
From mathcomp Require Import all_ssreflect all_algebra.
From Verif Require Import Py Nd Xnum XnumProofs UtilModel DensityModel NdProofs DensityProps2 DensityProps3.
Set Implicit Arguments. Unset Strict Implicit. Unset Printing Implicit Defensive.
Import Order.Theory GRing.Theory Num.Theory.
Local Open Scope ring_scope.

(** ** Specification *)
(** The entries of [l] at the positions [sh], in that order. *)
Definition pick T (sh : seq nat) (l : seq T) : seq T := pmap (fun i => ohead (drop i l)) sh.
(** A 2-D array with its rows in another order, and with its columns in another order. *)
Definition prows V (sh : seq nat) (A : nd V) : nd V := Nd (shape A) (flatten (pick sh (rows A))).
Definition pcols V (sh : seq nat) (A : nd V) : nd V :=
  if ndim A == 1%N then Nd (shape A) (pick sh (data A)) else Nd (shape A) (flatten [seq pick sh r | r <- rows A]).
Definition ppdf V (sh : seq nat) (a : pdfval V) : pdfval V := match a with P1 s => P1 (pick sh s) | P2 s => P2 (pick sh s) end.
(** An array with n rows. *)
Definition n_rows V (n : nat) (A : nd V) : Prop := [/\ nd_wf A, ndim A = 2%N & dim A 0 = n].

Section Pick.
Variables (n : nat) (sh : seq nat).
Hypothesis hsh : perm_eq sh (iota 0 n).

Lemma sh_lt i : i \in sh -> (i < n)%N.
Proof. by rewrite (perm_mem hsh) mem_iota. Qed.
Lemma size_sh : size sh = n.
Proof. by rewrite (perm_size hsh) size_iota. Qed.

Lemma pickE T (x0 : T) l : size l = n -> pick sh l = [seq nth x0 l i | i <- sh].
Proof.
move=> sl; have : all (fun i => (i < size l)%N) sh by apply/allP => i /sh_lt; rewrite sl.
rewrite /pick; elim: (sh) => [//|i s ih] /= /andP[hi hs]; rewrite (drop_nth x0 hi) /= ih //.
Qed.
Lemma size_pick T (l : seq T) : size l = n -> size (pick sh l) = n.
Proof.
case: l => [|x l] sl; last by rewrite (pickE x) // size_map size_sh.
by move: size_sh sl; rewrite /pick; case: (sh) => [|? ?] //= <-.
Qed.
Lemma pick_map T U (f : T -> U) l : pick sh (map f l) = map f (pick sh l).
Proof.
rewrite /pick; elim: (sh) => [//|i s ih] /=; rewrite -map_drop ih.
by case: (drop i l).
Qed.
Lemma zip_drop T U (u : seq T) (v : seq U) i : drop i (zip u v) = zip (drop i u) (drop i v).
Proof. by elim: i u v => [|i ih] [|x u] [|y v] //=; rewrite ?drop_nil //; case: (drop i _). Qed.
Lemma pick_zip T U (u : seq T) (v : seq U) : size u = size v -> pick sh (zip u v) = zip (pick sh u) (pick sh v).
Proof.
move=> e; rewrite /pick; elim: (sh) => [//|i s ih] /=; rewrite ih zip_drop.
have : size (drop i u) = size (drop i v) by rewrite !size_drop e.
by case: (drop i u) => [|x xs]; case: (drop i v).
Qed.
Lemma pick_nil T : pick sh [::] = [::] :> seq T.
Proof. by rewrite /pick; elim: (sh). Qed.
Lemma nth_pick T (x0 : T) l j : size l = n -> (j < n)%N -> nth x0 (pick sh l) j = nth x0 l (nth 0%N sh j).
Proof. by move=> sl hj; rewrite (pickE x0) // (nth_map 0%N) ?size_sh. Qed.
Lemma pick_nseq T (x : T) : pick sh (nseq n x) = nseq n x.
Proof.
rewrite (pickE x) ?size_nseq //; apply: (@eq_from_nth _ x); first by rewrite size_map size_nseq size_sh.
move=> i; rewrite size_map => hi; rewrite (nth_map 0%N) // !nth_nseq.
by do 2?case: ifP.
Qed.
Lemma pick_in T l (x : T) : List.In x (pick sh l) -> List.In x l.
Proof.
rewrite /pick; elim: (sh) => [//|i s ih] /=; case e : (drop i l) => [|y t] //=.
case=> [<-|] //; rewrite -(cat_take_drop i l) e; apply: List.in_or_app; by right; left.
Qed.
Lemma pick_perm (T : eqType) (l : seq T) : size l = n -> perm_eq (pick sh l) l.
Proof.
case: l => [|x l] sl; first by rewrite pick_nil.
rewrite (pickE x) //; rewrite -{2}(mkseq_nth x (x :: l)) /mkseq sl; exact: perm_map.
Qed.
Lemma pick_iota T (g : nat -> T) : pick sh [seq g i | i <- iota 0 n] = [seq g i | i <- sh].
Proof.
rewrite pick_map (pickE 0%N) ?size_iota //; congr map.
rewrite -[RHS]map_id; apply/eq_in_map => i hi; by rewrite nth_iota ?sh_lt.
Qed.

(** Arrays *)
Lemma prows_all V (A : nd V) : n_rows n A -> all (fun r => size r == dim A 1) (pick sh (rows A)).
Proof.
move=> [wf n2 d0]; rewrite (pickE [::]) ?size_rows // all_map; apply/allP => i hi /=.
have lt : (i < size (rows A))%N by rewrite size_rows d0 sh_lt.
by move: (all_size_rows wf n2) => /(all_nthP [::]); apply.
Qed.
Lemma rows_prows V (A : nd V) : n_rows n A -> rows (prows sh A) = pick sh (rows A).
Proof.
move=> h; have [wf n2 d0] := h; rewrite {1}/rows /prows /dim /= -/(dim A 0) -/(dim A 1).
have <- : size (pick sh (rows A)) = dim A 0 by rewrite size_pick ?size_rows // d0.
exact/rows_flatten/prows_all.
Qed.
Lemma prows_rows V (A : nd V) : n_rows n A -> n_rows n (prows sh A).
Proof.
move=> h; have [wf n2 d0] := h; split=> //.
have a := prows_all h; rewrite /nd_wf /prows /= size_flatten /seq.shape.
have -> : [seq size i | i <- pick sh (rows A)] = nseq (dim A 0) (dim A 1).
  have <- : size (pick sh (rows A)) = dim A 0 by rewrite size_pick ?size_rows // d0.
  by elim: (pick _ _) a => //= x l ih /andP [/eqP -> /ih <-].
move: n2; rewrite /ndim /dim; case: (Nd.shape A) => [|m [|p [|]]] //= _.
by rewrite sumn_nseq mulnC /prodn /= muln1.
Qed.
End Pick.

(** ** Sums *)
Section Sums.
Variable R : realFieldType.
Notation xnum := (xnum R).
Lemma xaddA : associative (@xadd R).
Proof. by case=> [a| | |] [b| | |] [c| | |] //=; rewrite addrA. Qed.
Lemma xaddC : commutative (@xadd R).
Proof. by case=> [a| | |] [b| | |] //=; rewrite addrC. Qed.
Lemma xadd0 : left_id (Fin 0) (@xadd R).
Proof. by case=> [a| | |] //=; rewrite add0r. Qed.
Lemma foldr_perm sh1 sh2 (g : nat -> xnum) : perm_eq sh1 sh2 -> foldr (@xadd R) (Fin 0) (map g sh1) = foldr (@xadd R) (Fin 0) (map g sh2).
Proof.
have swap (x y z : xnum) : xadd x (xadd y z) = xadd y (xadd x z) by rewrite !xaddA (xaddC x y).
have out i s : i \in s -> foldr (@xadd R) (Fin 0) (map g s) = xadd (g i) (foldr (@xadd R) (Fin 0) (map g (rem i s))).
  elim: s => [//|j s ih]; rewrite in_cons /=; case: (eqVneq i j) => [->|ne] /=; first by [].
  by move=> hi; rewrite ih // swap.
elim: sh1 sh2 => [|i s ih] sh2 h; first by move/perm_size: h; case: sh2.
have hi : i \in sh2 by rewrite -(perm_mem h) mem_head.
rewrite (out i sh2) //=; congr xadd; apply: ih.
by rewrite -(perm_cons i) (perm_trans h) // perm_to_rem.
Qed.
End Sums.

(** ** DensityProblem *)
Section Order.
Variable R : rcfType.
Notation xnum := (xnum R).
Notation nd := (nd R).
Variables (D KW BW : Type) (pdf : D -> KW -> nd -> res (pdfval xnum)) (nokw : KW) (nobw : BW)
  (uniform : seq R -> seq R -> D) (norm01 : D) (kde : nd -> BW -> seq xnum -> res D)
  (kde_pdf : D -> nd -> res (seq xnum)) (trunc : R -> R).
Notation dprob := (dprob R D).
Notation pargs := (pargs R D KW BW).
Notation dop := (dop R D KW BW).
Notation no_args := (no_args R D nokw nobw).
Notation set_observed := (set_observed pdf nokw norm01).
Notation set_initial := (set_initial pdf nokw uniform).
Notation set_predicted := (set_predicted pdf kde kde_pdf).
Notation fill_defaults := (fill_defaults pdf nokw uniform norm01 kde kde_pdf).
Notation fit := (fit pdf nokw uniform norm01 kde kde_pdf).
Notation ensure_up := (ensure_up pdf nokw nobw uniform norm01 kde kde_pdf).
Notation mud_point := (mud_point pdf nokw nobw uniform norm01 kde kde_pdf).
Notation expected_ratio := (expected_ratio pdf nokw nobw uniform norm01 kde kde_pdf).
Notation init := (density_init D trunc).
Notation run1 draw := (run1 pdf nokw nobw uniform norm01 kde kde_pdf trunc draw).
Notation run draw := (run pdf nokw nobw uniform norm01 kde kde_pdf trunc draw).
Notation nthx := (nth (NaN : xnum)).

(** A number of values: one for each of the n rows, and, of a 2-D array, as many in each row as the
    argument has columns. *)
Definition psized (n p : nat) (a : pdfval xnum) : Prop :=
  match a with P1 s => size s = n | P2 s => size s = n /\ all (fun r => size r == p) s end.
(** What the distributions do does not depend on the order of the rows: [pdf] gives its values row
    by row, a kernel density estimate is the same for the same data in another order, and its
    values are one per row. *)
Definition order_free (n : nat) (sh : seq nat) : Prop :=
  [/\ forall d kw (A : nd), n_rows n A -> pdf d kw (prows sh A) = rmap (ppdf sh) (pdf d kw A),
      forall d kw (A : nd) v, n_rows n A -> pdf d kw A = Ok v -> psized n (dim A 1) v,
      forall (A : nd) bw w, n_rows n A -> size w = n -> kde (prows sh A) bw (pick sh w) = kde A bw w,
      forall k (A : nd), n_rows n A -> kde_pdf k (prows sh A) = rmap (pick sh) (kde_pdf k A) &
      forall k (A : nd) v, n_rows n A -> kde_pdf k A = Ok v -> size v = n].
(** The problem with its samples in another order. *)
Definition reorder (sh : seq nat) (s : dprob) : dprob :=
  DP (prows sh (dX s)) (prows sh (dy s)) (ddom s) (d_int s) (pick sh (d_w s)) (omap (pick sh) (d_r s)) (omap (pick sh) (d_up s))
     (omap (pick sh) (d_in s)) (omap (pick sh) (d_pr s)) (omap (pick sh) (d_ob s)) (d_in_dist s) (d_pr_dist s) (d_ob_dist s).
(** Weights for n samples: a flat list of n, or layers of n. *)
Definition weights_for (n : nat) (w : option nd) : Prop :=
  if w is Some w then nd_wf w /\ ((ndim w = 1%N /\ size (data w) = n) \/ (ndim w = 2%N /\ dim w 1 = n)) else True.
(** The calls: weights for n samples; a predicted distribution only for one observable. *)
Definition call_for (n q : nat) (o : dop) : Prop :=
  match o with
  | OWeights w _ => weights_for n w
  | OPredicted a | OFit a => weights_for n (pa_w a) /\ (pa_dist a <> None -> q = 1%N)
  | _ => True
  end.
Definition reorder_args (sh : seq nat) (a : pargs) : pargs := PA (pa_dist a) (pa_bw a) (omap (pcols sh) (pa_w a)) (pa_kw a).
Definition reorder_call (sh : seq nat) (o : dop) : dop :=
  match o with
  | OWeights w b => OWeights D KW BW (omap (pcols sh) w) b
  | OPredicted a => OPredicted (reorder_args sh a)
  | OFit a => OFit (reorder_args sh a)
  | o => o
  end.
(** One entry per sample everywhere. *)
Definition sized (n : nat) (o : option (seq xnum)) : Prop := if o is Some v then size v = n else True.
Definition per_sample (n q : nat) (s : dprob) : Prop :=
  [/\ n_rows n (dX s), n_rows n (dy s) /\ dim (dy s) 1 = q, size (d_w s) = n,
      [/\ sized n (d_r s), sized n (d_up s), sized n (d_in s), sized n (d_pr s) & sized n (d_ob s)] & cache_ok s].

Variables (n q : nat) (sh : seq nat).
Hypothesis hsh : perm_eq sh (iota 0 n).
Hypothesis free : order_free n sh.
Notation reo := (reorder sh).
Notation good := (per_sample n q).
(** The second computation does to the reordered problem what the first does to the problem. *)
Definition sim A (m' m : dprob * res A) : Prop := m' = (reo m.1, m.2) /\ good m.1.
Lemma sim_bind A B (m' m : dprob * res A) (f g : dprob -> A -> dprob * res B) : sim m' m ->
  (forall s a, good s -> sim (f (reo s) a) (g s a)) -> sim (sbind m' f) (sbind m g).
Proof. by case: m => s [a|e] [-> gs] h /=; [apply: h | split]. Qed.
Lemma sim_ret A s (r : res A) : good s -> sim (reo s, r) (s, r).
Proof. by split. Qed.

Lemma pick_xvbop f (u v : seq xnum) : size u = n -> size v = n -> xvbop f (pick sh u) (pick sh v) = rmap (pick sh) (xvbop f u v).
Proof. by move=> su sv; rewrite !xvbop_same ?(size_pick hsh) ?su ?sv //= (pick_map sh) (pick_zip sh) ?su ?sv. Qed.
Lemma size_xvbop f (u v w : seq xnum) : size u = n -> size v = n -> xvbop f u v = Ok w -> size w = n.
Proof. by move=> su sv; rewrite xvbop_same ?su ?sv // => -[<-]; rewrite size_map size_zip su sv minnn. Qed.

Lemma prod_pick a : prod_axis1 (ppdf sh a) = rmap (pick sh) (prod_axis1 a) :> res (seq xnum).
Proof. by case: a => [s|s] //=; rewrite (pick_map sh). Qed.
Lemma size_prod p a (v : seq xnum) : psized n p a -> prod_axis1 a = Ok v -> size v = n.
Proof. by case: a => [s|s] //= [hs _] [<-]; rewrite size_map. Qed.

(** *** set_weights *)
Lemma norm2_pick (p : seq R) : size p = n -> norm2 (pick sh p) = norm2 p.
Proof. by move=> sp; rewrite /norm2; congr Num.sqrt; apply: perm_big; exact: (pick_perm hsh). Qed.
Lemma weight_prod_pick (rs : seq (seq R)) : all (fun r => size r == n) rs ->
  weight_prod n [seq pick sh r | r <- rs] = pick sh (weight_prod n rs).
Proof.
move=> /allP h; apply: (@eq_from_nth _ 0); first by rewrite (size_pick hsh) ?size_map ?size_iota.
move=> j; rewrite size_map size_iota => hj.
rewrite (nth_map 0%N) ?size_iota // nth_iota // (nth_pick hsh) ?size_map ?size_iota //.
have hi : (nth 0%N sh j < n)%N by apply: (sh_lt hsh); apply: mem_nth; rewrite (size_sh hsh).
rewrite (nth_map 0%N) ?size_iota // nth_iota // !add0n big_map big_seq [RHS]big_seq; apply: eq_bigr => r hr.
by rewrite (nth_pick hsh) //; apply/eqP/h.
Qed.

Lemma put_good s w : good s -> size w = n -> good (put_weights s w).
Proof.
move=> [gX gy gw [g1 g2 g3 g4 g5] [c1 c2 c3 c4]] sw; split=> //.
Qed.
Lemma reo_put s w : reo (put_weights s w) = put_weights (reo s) (pick sh w). Proof. by []. Qed.
Lemma weights_sim s w b : good s -> weights_for n w -> sim (set_weights (reo s) (omap (pcols sh) w) b) (set_weights s w b).
Proof.
move=> g; have [gX [gy _] gw _ _] := g; case: w => [w|] /= hw; last first.
  have [_ _ eX] := gX; split; last by apply: put_good; rewrite ?size_nseq.
  have e0 : dim (prows sh (dX s)) 0 = n by [].
  by cbn [fst snd]; rewrite reo_put [in RHS]eX (pick_nseq hsh) -[in RHS]e0.
have [wf hd] := hw; rewrite /n_samples [dim _ _]/=; have [_ _ dy0] := gy.
rewrite /n_samples; cbn [reo reorder dy]; rewrite -/(dim (dy s) 0).
have E : exists rs, [/\ all (fun r => size r == n) rs, (ndim w == 0%N) = false, (ndim (pcols sh w) == 0%N) = false &
   [/\ dim (if ndim w == 1%N then Nd [:: 1%N; size (data w)] (data w) else w) 1 = n,
       rows (if ndim w == 1%N then Nd [:: 1%N; size (data w)] (data w) else w) = rs,
       dim (if ndim (pcols sh w) == 1%N then Nd [:: 1%N; size (data (pcols sh w))] (data (pcols sh w)) else pcols sh w) 1 = n &
       rows (if ndim (pcols sh w) == 1%N then Nd [:: 1%N; size (data (pcols sh w))] (data (pcols sh w)) else pcols sh w) = [seq pick sh r | r <- rs]]].
  case: hd => -[nd1 sd].
    have nd1' : ndim (pcols sh w) = 1%N by rewrite /pcols nd1.
    exists [:: data w]; rewrite nd1 nd1' /=; split=> //; first by rewrite sd eqxx.
    have -> : data (pcols sh w) = pick sh (data w) by rewrite /pcols nd1.
    by rewrite (size_pick hsh) // /dim /= sd; split=> //; rewrite /rows /dim /= ?take_oversize ?(size_pick hsh) ?sd.
  have nd2' : ndim (pcols sh w) = 2%N by rewrite /pcols nd1.
  have a := all_size_rows wf nd1; exists (rows w); rewrite nd1 nd2' /=; split=> //; first by rewrite -sd.
  have -> : pcols sh w = Nd (Nd.shape w) (flatten [seq pick sh r | r <- rows w]) by rewrite /pcols nd1.
  split=> //; rewrite /rows /dim /= -/(rows w) -/(dim w 0) -/(dim w 1).
  have <- : size [seq pick sh r | r <- rows w] = dim w 0 by rewrite size_map size_rows.
  apply: rows_flatten; rewrite all_map; move: a; rewrite sd; apply: sub_all => r /eqP sr /=.
  by rewrite (size_pick hsh).
have [rs [ar -> -> [-> -> -> ->]]] := E; rewrite dy0 eqxx.
have sp : size (weight_prod n rs) = n by rewrite size_map size_iota.
rewrite (weight_prod_pick ar) (norm2_pick sp).
have dy0' : dim (prows sh (dy s)) 0 = n by [].
by rewrite dy0' eqxx; cbn [negb]; case: b; split; cbn [fst snd]; first [by rewrite reo_put (pick_map sh) | by apply: put_good => //; rewrite size_map].
Qed.

(** *** The other calls *)
Lemma pdf_free d kw (A : nd) : n_rows n A ->
  (a <- pdf d kw (prows sh A) ;; prod_axis1 a) = rmap (pick sh) (a <- pdf d kw A ;; prod_axis1 a) /\
  forall v, (a <- pdf d kw A ;; prod_axis1 a) = Ok v -> size v = n.
Proof.
move=> hA; have [f1 f2 _ _ _] := free; rewrite f1 //; have := f2 d kw A; case: (pdf d kw A) => [a|e] //= h.
by split; [exact: prod_pick | move=> v; apply: size_prod; exact: (h a)].
Qed.
Lemma observed_sim s d : good s -> sim (set_observed (reo s) d) (set_observed s d).
Proof.
move=> g; have [gX [gy eq] gw [g1 g2 g3 g4 g5] c] := g; rewrite /DensityModel.set_observed.
have [-> hs] := pdf_free (odflt norm01 d) nokw gy.
have c' := cache_observed pdf nokw norm01 d c; move: c'; rewrite /DensityModel.set_observed.
by case: (rbind _ _) hs => [v|e] /= hs c'; split=> //; split=> //; split=> //=; exact: hs.
Qed.
Lemma initial_sim s d : good s -> sim (set_initial (reo s) d) (set_initial s d).
Proof.
move=> g; have [gX [gy eq] gw [g1 g2 g3 g4 g5] c] := g.
have := cache_initial pdf nokw uniform d c; rewrite /DensityModel.set_initial.
rewrite (_ : default_initial uniform (reo s) = default_initial uniform s) //.
case: (match d with Some _ => _ | None => _ end) => [d'|e]; cbn [rbind]; last by move=> _; exact: sim_ret.
have [E hs] := pdf_free d' nokw gX; move: E hs.
case: (pdf d' nokw (dX s)) => [a|e]; cbn [rbind rmap].
  rewrite /reorder; cbn [dX]; case: (pdf d' nokw (prows sh (dX s))) => [a'|e']; cbn [rbind rmap]; case: (prod_axis1 a) => [v|e2]; cbn [rbind rmap].
  - by move=> -> hs c'; cbn [rbind]; split=> //; split=> //; split=> //=; exact: hs.
  - by move=> -> _ _; cbn [rbind]; exact: sim_ret.
  - by [].
  - by move=> [->] _ _; exact: sim_ret.
rewrite /reorder; cbn [dX]; case: (pdf d' nokw (prows sh (dX s))) => [a'|e']; cbn [rbind].
  by case: (prod_axis1 a') => [//|e2] [->] _ _; exact: sim_ret.
by move=> [->] _ _; exact: sim_ret.
Qed.

Lemma column_flat (s : seq (seq xnum)) : all (fun r => size r == 1%N) s ->
  flatten (pick sh s) = pick sh (flatten s) /\ size (flatten s) = size s.
Proof.
move=> h; have -> : flatten s = [seq head NaN r | r <- s].
  by elim: s h => [//|[|x []] // s ih] /= /ih ->.
split; last by rewrite size_map.
rewrite (pick_map sh); have : all (fun r => size r == 1%N) (pick sh s).
  elim: {+}sh => [//|i t ih]; rewrite /pick /=; case e : (drop i s) => [|r t'] //=; rewrite ih andbT.
  by have : all (fun r => size r == 1%N) (drop i s); [move: h; rewrite -{1}(cat_take_drop i s) all_cat => /andP[] | rewrite e => /= /andP[]].
by elim: (pick sh s) => [//|[|x []] // t ih] /= /ih ->.
Qed.
Lemma values_free s a : good s -> (pa_dist a <> None -> q = 1%N) ->
  predicted_values pdf kde kde_pdf (reo s) (reorder_args sh a) = rmap (fun p => (p.1, pick sh p.2)) (predicted_values pdf kde kde_pdf s a) /\
  forall d v, predicted_values pdf kde kde_pdf s a = Ok (d, v) -> size v = n.
Proof.
move=> g ha; have [gX [gy eq] gw _ _] := g; have [f1 f2 f3 f4 f5] := free.
rewrite /predicted_values; cbn [reorder_args pa_dist pa_bw pa_kw].
case: (pa_dist a) ha => [d|] ha.
  have q1 := ha (fun h => ltac:(discriminate h)); rewrite /reorder; cbn [dy]; rewrite f1 //.
  have := f2 d (pa_kw a) _ _ gy; case: (pdf d (pa_kw a) (dy s)) => [v|e] //= h.
  move: (h v erefl); rewrite eq q1; case: v {h} => [v|v] /= sv; first by split=> // d' v' [_ <-].
  have [-> hv] := column_flat sv.2; split=> // d' v' [_ <-]; by rewrite hv; exact: sv.1.
rewrite /reorder; cbn [dy d_w]; rewrite f3 //; case: (kde _ _ _) => [k|e] //=; rewrite f4 //.
by have := f5 k _ _ gy; case: (kde_pdf k (dy s)) => [v|e] //= h; split=> // d v' [_ <-]; exact: h.
Qed.
Lemma predicted_sim s a : good s -> weights_for n (pa_w a) -> (pa_dist a <> None -> q = 1%N) ->
  sim (set_predicted (reo s) (reorder_args sh a)) (set_predicted s a).
Proof.
move=> g hw ha; rewrite /DensityModel.set_predicted; apply: sim_bind.
  cbn [reorder_args pa_w]; case: (pa_w a) hw => [w|] hw; last exact: sim_ret.
  exact: (weights_sim false g hw).
move=> s1 _ g1; have [-> hs] := values_free g1 ha.
have [gX [gy eq] gw [r1 r2 r3 r4 r5] [c1 c2 c3 c4]] := g1.
case: (predicted_values _ _ _ s1 a) hs => [[d v]|e] /= hs; last exact: sim_ret.
split=> //; split=> //; split=> //=; exact: hs.
Qed.
Lemma fill_sim s a : good s -> weights_for n (pa_w a) -> (pa_dist a <> None -> q = 1%N) ->
  sim (fill_defaults (reo s) (reorder_args sh a)) (fill_defaults s a).
Proof.
move=> g hw ha; rewrite /DensityModel.fill_defaults; apply: sim_bind.
  rewrite {1}/reorder; cbn [d_in]; case: (d_in s) => [v|]; first exact: sim_ret.
  exact: initial_sim.
move=> s1 _ g1; apply: sim_bind.
  rewrite {1}/reorder; cbn [d_pr]; case: (d_pr s1) => [v|]; first exact: sim_ret.
  exact: predicted_sim.
move=> s2 _ g2; rewrite {1}/reorder; cbn [d_ob]; case: (d_ob s2) => [v|]; first exact: sim_ret.
exact: observed_sim.
Qed.
Lemma fit_sim s a : good s -> weights_for n (pa_w a) -> (pa_dist a <> None -> q = 1%N) ->
  sim (fit (reo s) (reorder_args sh a)) (fit s a).
Proof.
move=> g hw ha; have [_ [_ _] _ _ c] := g.
have [e g1] := fill_sim g hw ha; have [c1 c2] := cache_fill pdf nokw uniform norm01 kde kde_pdf a c.
have cf := cache_fit pdf nokw uniform norm01 kde kde_pdf a c; move: cf.
rewrite /DensityModel.fit; rewrite e; move: g1 c1 c2.
case: (fill_defaults s a) => s1 [u|er] /= g1 c1 c2; last by move=> _; exact: sim_ret.
have [gX [gy eq] gw [r1 r2 r3 r4 r5] _] := g1; have [h1 h2 h3] := c2 isT.
have [iv ei] : exists v, d_in s1 = Some v by move: h1; case: (d_in s1) => // v _; exists v.
have [pr ep] : exists v, d_pr s1 = Some v by move: h2; case: (d_pr s1) => // v _; exists v.
have [ob eo] : exists v, d_ob s1 = Some v by move: h3; case: (d_ob s1) => // v _; exists v.
move: r3 r4 r5; rewrite ei ep eo /= => s3 s4 s5.
rewrite (pick_xvbop _ s5 s4); case er : (xvbop (@xdiv R) ob pr) => [r|e1]; cbn [rmap sbind]; last by move=> _; exact: sim_ret.
have sr := size_xvbop s5 s4 er.
rewrite (pick_xvbop _ s3 gw); case ew : (xvbop (@xmul R) iv (d_w s1)) => [iw|e1]; cbn [rmap rbind sbind] => cf; last first.
  by split=> //; split=> //; split=> //=; rewrite ?ei ?ep ?eo.
have siw := size_xvbop s3 gw ew.
move: cf; rewrite (pick_xvbop _ siw sr); case eu : (xvbop (@xmul R) iw r) => [up|e1]; cbn [rmap rbind sbind] => cf; last first.
  by split=> //; split=> //; split=> //=; rewrite ?ei ?ep ?eo.
by have su := size_xvbop siw sr eu; split=> //; split=> //; split=> //=; rewrite ?ei ?ep ?eo.
Qed.

Lemma no_args_ok : weights_for n (pa_w no_args) /\ (pa_dist no_args <> None -> q = 1%N).
Proof. by []. Qed.
Lemma ensure_sim s : good s -> sim (ensure_up (reo s)) (ensure_up s).
Proof.
move=> g; have [h1 h2] := no_args_ok; have := fit_sim g h1 h2; rewrite /DensityModel.ensure_up {2}/reorder; cbn [d_up].
by case: (d_up s) => [u|] //= _; exact: sim_ret.
Qed.
Lemma ensured s s1 : (ensure_up s) = (s1, Ok tt) -> d_up s1 <> None.
Proof.
rewrite /DensityModel.ensure_up; case e : (d_up s) => [u|]; first by move=> [<-]; rewrite e.
rewrite /DensityModel.fit; case: (fill_defaults _ _) => s2 [a|e2] //; rewrite /DensityModel.lift; cbn [sbind].
case: (xvbop _ _ _) => [r|e2] //; cbn [sbind]; case: (rbind _ _) => [u|e2] //; cbn [sbind].
by move=> [<-].
Qed.
(** C151: the estimate of the reordered problem. *)
Lemma mud_free s : good s ->
  match mud_point s with
  | (s1, Ok x) => exists u m m', [/\ good s1, d_up s1 = Some u, argmax u = Ok m, x = nth [::] (rows (dX s)) m &
        [/\ (m' < n)%N, argmax (pick sh u) = Ok m' & mud_point (reo s) = (reo s1, Ok (nth [::] (rows (dX s)) (nth 0%N sh m')))]]
  | (s1, Err e) => mud_point (reo s) = (reo s1, Err e) /\ good s1
  end.
Proof.
move=> g; rewrite /DensityModel.mud_point; have [E g1] := ensure_sim g; rewrite E.
have [bX _ _ _] := @DensityProps3.mud_base R D KW BW pdf nokw nobw uniform norm01 kde kde_pdf s.
move: g1 (@ensured s) bX; rewrite /DensityModel.mud_point; case: (ensure_up s) => s1 [[]|e] /= g1 hu bX; last by split.
have {hu} := hu _ erefl; case eu : (d_up s1) => [u|] // _; rewrite /DensityModel.lift /=.
have {}bX : dX s1 = dX s by exact: bX.
have [gX _ _ [_ su _ _ _] _] := g1; move: su; rewrite eu /= => su.
have [wf d2 d0] := gX.
case em : (argmax u) => [m|e] /=; last first.
  have : ~~ is_ok (argmax u) by rewrite em.
  rewrite argmax_ok su -eqn0Ngt => /eqP n0; split=> //.
  have : size (pick sh u) = 0%N by rewrite (size_pick hsh su).
  by case: (pick sh u) => //= _; move: em su; rewrite n0; case: (u) => //= -[->].
have n0 : (0 < n)%N by have := argmax_ok u; rewrite em su /= => <-.
have lm : (m < n)%N.
  by have := argmaxP em; case: ifP => _ []; rewrite su.
have [m' em'] : exists m', argmax (pick sh u) = Ok m'.
  by have := argmax_ok (pick sh u); rewrite (size_pick hsh su) n0; case: (argmax _) => // m' _; exists m'.
have lm' : (m' < n)%N.
  by have := argmaxP em'; case: ifP => _ []; rewrite (size_pick hsh su).
rewrite em' /=; rewrite /row_at d0 lm; exists u, m, m'; split=> //; first by rewrite bX.
split=> //; have -> : dim (prows sh (dX s1)) 0 = n by [].
by rewrite lm' (rows_prows hsh gX) (nth_pick hsh) ?size_rows // bX.
Qed.

Lemma ratio_sim s : good s -> sim (expected_ratio (reo s)) (expected_ratio s).
Proof.
move=> g; rewrite /DensityModel.expected_ratio; apply: sim_bind; first exact: ensure_sim.
move=> s1 _ g1; rewrite /DensityModel.lift; have [_ _ gw [sr _ _ _ _] _] := g1.
split=> //=; congr (_, _).
have z0 (l : seq xnum) : zip ([::] : seq xnum) l = [::] by case: l.
have xs (l : seq xnum) : size l = n -> xsum (pick sh l) = xsum l.
  move=> sl; rewrite (pickE hsh NaN sl) -{2}(mkseq_nth NaN l) /mkseq sl; exact: foldr_perm.
case er : (d_r s1) sr => [r|] /= sr; last by rewrite /np_average /= (size_pick hsh gw) gw xs // !z0.
rewrite /np_average !(size_pick hsh) // sr gw eqxx /=.
have -> : [seq xmul p.1 p.2 | p <- zip (pick sh r) (pick sh (d_w s1))] = pick sh [seq xmul p.1 p.2 | p <- zip r (d_w s1)].
  by rewrite (pick_map sh) (pick_zip sh) ?sr ?gw.
by rewrite !xs // size_map size_zip sr gw minnn.
Qed.

(** *** Domains *)
Lemma np_min_perm (a b : seq R) : perm_eq a b -> np_min a = np_min b.
Proof.
move=> h; case e : (size a == 0%N).
  have eb : size b == 0%N by rewrite -(perm_size h).
  by move: e eb; rewrite !size_eq0 => /eqP-> /eqP->.
apply: np_min_uniq; first by rewrite (perm_mem h) np_min_in // -(perm_size h) lt0n e.
by move=> x hx; apply: np_min_le; rewrite -(perm_mem h).
Qed.
Lemma np_max_perm (a b : seq R) : perm_eq a b -> np_max a = np_max b.
Proof.
move=> h; case e : (size a == 0%N).
  have eb : size b == 0%N by rewrite -(perm_size h).
  by move: e eb; rewrite !size_eq0 => /eqP-> /eqP->.
apply: np_max_uniq; first by rewrite (perm_mem h) np_max_in // -(perm_size h) lt0n e.
by move=> x hx; apply: np_max_ge; rewrite -(perm_mem h).
Qed.
Lemma bounds_free (A : nd) : n_rows n A -> bounds_of (prows sh A) = bounds_of A.
Proof.
move=> hA; rewrite /bounds_of; congr (if _ then _ else _); congr (Ok (nd2 2 _)).
have -> : dim (prows sh A) 1 = dim A 1 by [].
apply/eq_map => j; have pc : perm_eq (column (prows sh A) j) (column A j).
  rewrite /column (rows_prows hsh hA) -(pick_map sh); apply: (pick_perm hsh).
  by rewrite size_map size_rows; case: hA.
by rewrite (np_min_perm pc) (np_max_perm pc).
Qed.

Variable draw : nat -> dprob -> res unit.
Hypothesis drawn : forall k s, good s -> draw k (reo s) = draw k s.
Lemma plot_sim s xr p a b c d : good s ->
  sim (plot_param_space pdf nokw nobw uniform norm01 kde kde_pdf trunc draw (reo s) xr p a b c d)
      (plot_param_space pdf nokw nobw uniform norm01 kde kde_pdf trunc draw s xr p a b c d).
Proof.
move=> g; rewrite /plot_param_space /DensityModel.lift; apply: sim_bind.
  case: xr; first exact: sim_ret.
  have -> : ddom (reo s) = ddom s by []. have -> : d_int (reo s) = d_int s by [].
  by case: (fit_domain _ _ _ _) => [B|e]; [split=> //; case: g | exact: sim_ret].
move=> s1 _ g1; apply: sim_bind; first exact: sim_ret.
move=> s2 _ g2; apply: sim_bind; first by rewrite drawn //; exact: sim_ret.
move=> s3 _ g3; apply: sim_bind; first by rewrite drawn //; exact: sim_ret.
move=> s4 _ g4; apply: sim_bind; first by rewrite drawn //; exact: sim_ret.
move=> s5 _ g5; apply: sim_bind; last by move=> s6 _ g6; rewrite drawn //; exact: sim_ret.
case: d; last exact: sim_ret.
have := mud_free g5; rewrite /DensityModel.estimate; case: (mud_point s5) => s6 [x|e].
  by move=> [u [m [m' [g6 _ _ _ [_ _ ->]]]]]; cbn [sbind]; rewrite drawn //; exact: sim_ret.
by move=> [-> g6]; cbn [sbind]; exact: sim_ret.
Qed.
Lemma obs_sim s k : good s -> sim (plot_obs_space draw (reo s) k) (plot_obs_space draw s k).
Proof.
move=> g; have [gX [gy eq] _ _ _] := g; rewrite /plot_obs_space /DensityModel.lift drawn //.
rewrite (_ : (match k with Some _ => _ | None => rmap _ (fit_domain id (Some (dy (reo s))) None _) end) =
  (match k with Some k => Ok k | None => rmap (fun B : nd => dim B 0) (fit_domain id (Some (dy s)) None (10%:R^-1)) end)).
  exact: sim_ret.
by case: k => [//|]; rewrite /fit_domain /reorder; cbn [dy]; rewrite bounds_free.
Qed.
Lemma call_sim s o : good s -> call_for n q o -> sim (run1 draw (reo s) (reorder_call sh o)) (run1 draw s o).
Proof.
move=> g; case: o => [w b|d|d|a|a| | |xr p a b c d|k] /= ho.
- exact: weights_sim.
- exact: observed_sim.
- exact: initial_sim.
- by case: ho; exact: predicted_sim.
- by case: ho; exact: fit_sim.
- have := mud_free g; rewrite /void; case: (mud_point s) => s1 [x|e].
    by move=> [u [m [m' [g1 _ _ _ [_ _ ->]]]]].
  by move=> [-> g1].
- by have [e g1] := ratio_sim g; rewrite /void e; split.
- exact: plot_sim.
- exact: obs_sim.
Qed.

(** C151: whatever calls are made on the reordered problem (with weights reordered in the same
    way), each returns or raises as on the problem, which stays the same up to the order. *)
Theorem C151_history s h : good s -> List.Forall (call_for n q) h ->
  [/\ run draw (reo s) (map (reorder_call sh) h) = reo (run draw s h),
      all_return pdf nokw nobw uniform norm01 kde kde_pdf trunc draw (reo s) (map (reorder_call sh) h) =
      all_return pdf nokw nobw uniform norm01 kde kde_pdf trunc draw s h & good (run draw s h)].
Proof.
elim: h s => [//|o h ih] s g hh; inversion hh as [|x t h1 h2]; subst.
have [e g1] := call_sim g h1; have [i1 i2 i3] := ih _ g1 h2.
by cbn [map DensityModel.run foldl DensityModel.all_return]; rewrite e; cbn [fst snd]; split; rewrite ?i1 ?i2.
Qed.

(** C151: the constructor. *)
Theorem C151_constructor (X y : nd) xint dom domint w b pad : n_rows n X -> n_rows n y -> dim y 1 = q -> weights_for n w ->
  init (prows sh X) (prows sh y) xint dom domint (omap (pcols sh) w) b pad = rmap reo (init X y xint dom domint w b pad) /\
  forall s, init X y xint dom domint w b pad = Ok s -> good s.
Proof.
move=> hX hy eq hw; have [wX n2X d0X] := hX; have [wy n2y d0y] := hy; rewrite /density_init.
have ss V (A : Nd.nd V) (o : seq (option nat)) : ndim A = 2%N -> ndim (prows sh A) = 2%N by [].
have s2 (sp : seq (option nat)) (A : nd) : ndim A = 2%N -> set_shape sp A = Ok A by move=> e; rewrite /set_shape e.
rewrite !s2 //; cbn [rbind].
have -> : fit_domain (cast_of trunc xint) (Some (prows sh X)) None (10%:R^-1) = fit_domain (cast_of trunc xint) (Some X) None (10%:R^-1).
  by rewrite /fit_domain bounds_free.
have -> : dim (prows sh X) 1 = dim X 1 by [].
case: (match dom with Some _ => _ | None => _ end) => [[dm di]|e]; cbn [rbind rmap]; last by [].
cbn [fst snd].
pose t0 : dprob := DP X y dm di (nseq n (Fin 1)) None None None None None None None None.
have g0 : good t0 by split=> //; rewrite size_nseq.
have same (A B : nd) ws ws' v : dim A 0 = n -> dim B 0 = n ->
  (let (s, r) := set_weights (DP A B dm di ws None None None None None (None : option D) None None) v b in _ <- r;; Ok s) =
  (let (s, r) := set_weights (DP A B dm di ws' None None None None None None None None) v b in _ <- r;; Ok s).
  move=> _ _; rewrite /set_weights; case: v => [v|] //; case: (ndim v == 0%N) => //.
  by rewrite /n_samples; cbn [dy]; case: (_ != _).
rewrite (same _ _ [::] (pick sh (nseq n (Fin 1)))) // (same X y [::] (nseq n (Fin 1))) //.
have [e g1] := weights_sim b g0 hw.
rewrite -/t0; move: e; rewrite /reorder; cbn [t0 dX dy ddom d_int d_w d_r d_up d_in d_pr d_ob d_in_dist d_pr_dist d_ob_dist omap obind oapp] => e.
rewrite e -/t0; move: g1; case: (set_weights t0 w b) => s [[]|er] /= g1; last by [].
by split=> // s' [<-].
Qed.

(** Sample i has the largest updated density; an undefined density counts as larger than all. *)
Definition best (u : seq xnum) (i : nat) : Prop :=
  (i < size u)%N /\ if has (@isnan R) u then is_true (isnan (nthx u i)) else forall j, (j < size u)%N -> xle (nthx u j) (nthx u i).
Lemma argmax_best u i : argmax u = Ok i -> best u i.
Proof. by move=> /argmaxP; rewrite /best; case: ifP => _ [h1 h2 h3]. Qed.

(** C151: the estimate of the reordered problem is, like that of the problem, a sample of largest
    updated density; the same sample if there is one only; an exception is the same. *)
Theorem C151_estimate s : good s ->
  match mud_point s with
  | (s1, Ok x) => exists u i i',
      [/\ d_up s1 = Some u, best u i /\ best u i', x = nth [::] (rows (dX s)) i,
          mud_point (reo s) = (reo s1, Ok (nth [::] (rows (dX s)) i')) &
          (forall j, best u j -> j = i) -> mud_point (reo s) = (reo s1, Ok x)]
  | (s1, Err e) => mud_point (reo s) = (reo s1, Err e)
  end.
Proof.
move=> g; have := mud_free g; case: (mud_point s) => s1 [x|e]; last by case.
move=> [u [m [m' [g1 eu em ex [lm em' E]]]]].
have su : size u = n by have [_ _ _ [_ h _ _ _] _] := g1; move: h; rewrite eu.
have b := argmax_best em; have b' : best u (nth 0%N sh m').
  have [h1 h2] := argmax_best em'; split; first by rewrite su (sh_lt hsh) // mem_nth // (size_sh hsh).
  have nt j : (j < n)%N -> nthx (pick sh u) j = nthx u (nth 0%N sh j) by move=> hj; rewrite (nth_pick hsh).
  have back j : (j < n)%N -> exists2 k, (k < n)%N & nth 0%N sh k = j.
    move=> hj; have hin : j \in sh by rewrite (perm_mem hsh) mem_iota.
    by exists (index j sh); [rewrite -(size_sh hsh) index_mem | rewrite nth_index].
  have hN : has (@isnan R) (pick sh u) = has (@isnan R) u.
    apply/(has_nthP NaN)/(has_nthP NaN) => -[j]; rewrite ?(size_pick hsh su) ?su => hj.
      by rewrite nt // => h; exists (nth 0%N sh j); rewrite ?su // (sh_lt hsh) // mem_nth // (size_sh hsh).
    by move=> h; have [k hk ek] := back j hj; exists k; rewrite ?(size_pick hsh su) // nt // ek.
  move: h2; rewrite hN nt // (size_pick hsh su) su; case: ifP => // _ h2 j hj.
  by have [k hk ek] := back j hj; rewrite -ek -nt //; apply: h2.
exists u, m, (nth 0%N sh m'); split=> // only.
by rewrite E (only _ b') ex.
Qed.

(** C151: the expected ratio is the same. *)
Theorem C151_ratio s : good s -> (expected_ratio (reo s)).2 = (expected_ratio s).2.
Proof. by move=> g; have [-> _] := ratio_sim g. Qed.
End Order.
