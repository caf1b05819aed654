(** Properties C146 (plot_chain_error) and C147 (drawing on the current axes). *)
Set Warnings "-notation-overridden,-ambiguous-paths".
From Coq Require Import String ZArith.
From mathcomp Require Import all_ssreflect all_algebra.
From Verif Require Import Py Spec Nd NdProofs Dmx LgpModel LgpTheory IterModel IterProps2 StModel StProps StProps3 DrawModel PoisExModel PoisExProps3 PypModel.
Set Implicit Arguments. Unset Strict Implicit. Unset Printing Implicit Defensive.
Import Order.Theory GRing.Theory Num.Theory.
Local Open Scope ring_scope.

Section Pyp.
Variable R : rcfType.
Notation nd := (nd R).
Notation pyp := (pyp R).

(** The points of vector i: (0, v_0), (1, v_1), ... with its label, and its marker if there are any. *)
Definition vec_points (markers : option (seq string)) (i : nat) (v : seq R) : dart R :=
  DPoints (mkseq (fun k => k%:R) (size v)) v (Some ("$p^{(" ++ str_int (Posz i.+1) ++ ")}$")%string)
    (omap (fun m => nth ""%string m i) markers).
(** What is on Axes number j. *)
Definition on_axes (s : pyp) (j : nat) : seq (dart R) := nth [::] (axes s) j.

Lemma nth_draw s c (a : dart R) j : (c < size (axes s))%N ->
  on_axes (draw_on s c a) j = on_axes s j ++ (if j == c then [:: a] else [::]).
Proof.
move=> hc; rewrite /on_axes /draw_on /= nth_set_nth /=; case: (j =P c) => [->|_]; last by rewrite cats0.
by rewrite cats1.
Qed.
Lemma size_draw s c (a : dart R) : (c < size (axes s))%N -> size (axes (draw_on s c a)) = size (axes s).
Proof. by move=> hc; rewrite /draw_on /= size_set_nth; apply/maxn_idPr. Qed.
Lemma plt_drawE s c (a : dart R) : cur s = Some c -> plt_draw s a = draw_on s c a.
Proof. by move=> h; rewrite /plt_draw /gca h. Qed.

(** The loop, with [n] the number of vectors that have a marker. *)
Lemma scatter_vecsE vecs markers i s c : cur s = Some c -> (c < size (axes s))%N ->
  let n := if markers is Some m then minn (size vecs) (size m - i) else size vecs in
  let t := scatter_vecs i vecs markers s in
  [/\ t.2 = (if (n == size vecs)%N then Ok tt else Err IndexError), cur t.1 = Some c, size (axes t.1) = size (axes s) &
   forall j, on_axes t.1 j = on_axes s j ++ (if j == c then mkseq (fun k => vec_points markers (i + k) (nth [::] vecs k)) n else [::])].
Proof.
elim: vecs i s => [|v vecs ih] i s hc hs.
  by cbn [scatter_vecs]; case: markers => [m|]; rewrite /= ?min0n; split=> // j; case: ifP; rewrite cats0.
cbn [scatter_vecs].
set g := (match markers with Some _ => _ | None => _ end).
case: (boolP (if markers is Some m then (i < size m)%N else true)) => hm; last first.
  have [m em hm'] : exists2 m, markers = Some m & (size m <= i)%N by case: (markers) hm => // m; rewrite -leqNgt; exists m.
  rewrite {}/g em ltnNge hm' /=; move: hm'; rewrite -subn_eq0 => /eqP ->; rewrite minn0; split=> // j.
  by case: ifP; rewrite cats0.
have eg : g = Ok (omap (fun m => nth ""%string m i) markers).
  by rewrite /g; case: (markers) hm => //= m ->.
rewrite {}eg (plt_drawE _ hc).
set s1 := draw_on _ _ _.
have hc1 : cur s1 = Some c by [].
have hs1 : (c < size (axes s1))%N by rewrite size_draw.
have := ih i.+1 s1 hc1 hs1; set n1 := (if markers is Some _ then _ else _).
have -> : (if markers is Some m then minn (size (v :: vecs)) (size m - i) else size (v :: vecs)) = n1.+1.
  rewrite /n1; case: (markers) hm => //= m hm.
  by rewrite subnS -minnSS prednK // subn_gt0.
case=> e1 e2 e3 e4; split.
- by rewrite e1 /= eqSS.
- exact: e2.
- by rewrite e3 size_draw.
- move=> j; rewrite e4 /s1 nth_draw // -catA; congr cat; case: ifP => // _.
  rewrite /mkseq /= -[1%N]/(1 + 0)%N iotaDl -map_comp addn0; congr cons.
  by apply: eq_map => k /=; rewrite addSnnS add1n.
Qed.

(** C147: plot_1D_vecs without an Axes: all on a new one, which is returned; the others stay as they are. *)
Theorem C147_vecs_new vecs markers label (s : pyp) :
  (if markers is Some m then size vecs <= size m else true)%N ->
  exists s' i, [/\ plot_1D_vecs vecs markers None label s = (s', Ok i), i = size (axes s), size (axes s') = i.+1,
    on_axes s' i = mkseq (fun k => vec_points markers k (nth [::] vecs k)) (size vecs) ++ (if label then [:: DTexts R] else [::]) &
    forall j, (j < i)%N -> on_axes s' j = on_axes s j].
Proof.
move=> hm; rewrite /plot_1D_vecs /new_axes; set i := size (axes s).
set s0 := PyP _ _; have z0 : size (axes s0) = i.+1 by rewrite /s0 size_rcons.
have hi : (i < size (axes s0))%N by rewrite z0.
have [] := @scatter_vecsE vecs markers 0 s0 i erefl hi.
have -> : (if markers is Some m then minn (size vecs) (size m - 0) else size vecs) = size vecs.
  by case: (markers) hm => // m; rewrite subn0 => /minn_idPl.
rewrite eqxx; case: (scatter_vecs _ _ _ _) => s1 r /= -> c1 z1 n1.
have o0 j : (j < i)%N -> on_axes s0 j = on_axes s j by move=> hj; rewrite /on_axes /s0 /= nth_rcons hj.
have oi : on_axes s0 i = [::] by rewrite /on_axes /s0 /= nth_rcons ltnn eqxx.
eexists _, i; split; first by reflexivity.
- by [].
- by case: (label); rewrite ?size_draw ?z1 ?z0.
- by case: (label); rewrite ?nth_draw ?z1 // n1 eqxx oi cat0s ?cats0.
- move=> j hj; have nj : (j == i) = false by rewrite ltn_eqF.
  by case: (label); rewrite ?nth_draw ?z1 // n1 nj !cats0 o0.
Qed.

(** C147: with an Axes i given, the points are drawn on the current Axes c, the texts on i; i is returned. *)
Theorem C147_vecs_given vecs markers label (s : pyp) i c :
  (if markers is Some m then size vecs <= size m else true)%N ->
  cur s = Some c -> (c < size (axes s))%N -> (i < size (axes s))%N ->
  exists s', [/\ plot_1D_vecs vecs markers (Some i) label s = (s', Ok i), cur s' = Some c, size (axes s') = size (axes s) &
    forall j, on_axes s' j = on_axes s j ++
      (if j == c then mkseq (fun k => vec_points markers k (nth [::] vecs k)) (size vecs) else [::]) ++
      (if (j == i) && label then [:: DTexts R] else [::])].
Proof.
move=> hm hc hs hi; rewrite /plot_1D_vecs.
have [] := @scatter_vecsE vecs markers 0 s c hc hs.
have -> : (if markers is Some m then minn (size vecs) (size m - 0) else size vecs) = size vecs.
  by case: (markers) hm => // m; rewrite subn0 => /minn_idPl.
rewrite eqxx; case: (scatter_vecs _ _ _ _) => s1 r /= -> c1 z1 n1.
eexists; split; first by reflexivity.
- by case: (label).
- by case: (label); rewrite ?size_draw ?z1.
- by move=> j; case: (label); rewrite ?nth_draw ?z1 // n1 ?andbT ?andbF ?cats0 // catA.
Qed.

(** C147: fewer markers than vectors: IndexError, after drawing one vector per marker on the current Axes. *)
Theorem C147_vecs_markers vecs markers label (s : pyp) i c :
  cur s = Some c -> (c < size (axes s))%N -> (size markers < size vecs)%N ->
  exists s', plot_1D_vecs vecs (Some markers) (Some i) label s = (s', Err IndexError) /\
    forall j, on_axes s' j = on_axes s j ++
      (if j == c then mkseq (fun k => vec_points (Some markers) k (nth [::] vecs k)) (size markers) else [::]).
Proof.
move=> hc hs hm; rewrite /plot_1D_vecs.
have [] := @scatter_vecsE vecs (Some markers) 0 s c hc hs.
rewrite subn0 (minn_idPr (ltnW hm)) ltn_eqF //; case: (scatter_vecs _ _ _ _) => s1 r /= -> _ _ n1.
by exists s1.
Qed.

(** C147: sensor_scatter_plot: the positions of the sensors asked for (all without a mask) are drawn on
    the current Axes, which is the one returned only if none was given or the one given is current. *)
Theorem C147_sensors (t : st R) se n w mask (s : pyp) ax :
  s_sens t = Some se -> nd_wf se -> Nd.shape se = [:: n; w] -> (2 <= w)%N ->
  (if mask is Some l then all (fun i => (i < n)%N) l else true) ->
  let l := if mask is Some l then l else iota 0 n in
  let points := DPoints [seq ent se i 0 | i <- l] [seq ent se i 1 | i <- l] None None in
  if ax is Some i then
    forall c, cur s = Some c -> (c < size (axes s))%N ->
    exists s', sensor_scatter_plot t ax mask s = (s', Ok i) /\
      forall j, on_axes s' j = on_axes s j ++ (if j == c then [:: points] else [::])
  else
    exists s', [/\ sensor_scatter_plot t ax mask s = (s', Ok (size (axes s))), on_axes s' (size (axes s)) = [:: points] &
      forall j, (j < size (axes s))%N -> on_axes s' j = on_axes s j].
Proof.
move=> es wf sh w2 hm l points; rewrite /sensor_scatter_plot es; cbn [of_opt rbind].
have -> : (ndim se == 2%N) by rewrite /ndim sh.
cbn [guard rbind].
have d0 : dim se 0 = n by rewrite /dim sh.
rewrite d0 -/l.
have hl : all (fun i => (i < n)%N) l.
  rewrite /l; case: (mask) hm => // _; apply/allP => i; rewrite mem_iota add0n => /andP [_ h]; exact: h.
have -> : scatter_at se l = Ok ([seq ent se x 0 | x <- l], [seq ent se x 1 | x <- l]).
  rewrite /scatter_at /ndim sh; cbn [size]; rewrite /guard eqxx; cbn [rbind].
  have -> : rmapM (py_index (dim se 0)) [seq Posz i | i <- l] = Ok l.
    rewrite d0; elim: (l) hl => [//|x l' ih] /= /andP [hx /ih ->].
    by rewrite hx.
  cbn [rbind]; rewrite {1}/dim sh /= w2 /=; congr (Ok (_, _)); apply/eq_in_map => x /(allP hl) hx;
  by rewrite /ent (rows_of wf sh) (nth_map 0%N) ?size_iota // nth_iota // add0n /row_of (nth_map 0%N) ?size_iota ?nth_iota //
     (leq_trans _ w2).
case: ax => [i c hc hs|].
  by rewrite /= (plt_drawE _ hc); eexists; split; first reflexivity; move=> j; rewrite nth_draw.
rewrite /=; set s0 := PyP _ _; have z0 : size (axes s0) = (size (axes s)).+1 by rewrite /s0 size_rcons.
rewrite (@plt_drawE s0 (size (axes s)) _ erefl); eexists; split; first by reflexivity.
  by rewrite nth_draw ?z0 // eqxx /on_axes /s0 /= nth_rcons ltnn eqxx.
by move=> j hj; rewrite nth_draw ?z0 // (ltn_eqF hj) cats0 /on_axes /s0 /= nth_rcons hj.
Qed.

(** C147: a second Axes never gets the points meant for it. *)
Corollary C147_given_not_current vecs markers label (s : pyp) i c :
  (if markers is Some m then size vecs <= size m else true)%N ->
  cur s = Some c -> (c < size (axes s))%N -> (i < size (axes s))%N -> i <> c ->
  exists s', plot_1D_vecs vecs markers (Some i) label s = (s', Ok i) /\
    on_axes s' i = on_axes s i ++ (if label then [:: DTexts R] else [::]).
Proof.
move=> hm hc hs hi /eqP/negbTE ne.
have [s' [e _ _ h]] := C147_vecs_given label hm hc hs hi.
by exists s'; split=> //; rewrite h ne eqxx.
Qed.

(** C147: plot_vert_line: the line goes from the bottom to the top of the Axes; the lower limit stays, the
    upper one is [ylim] (also 0) if it is given; further lines without [ylim] change nothing. *)
Theorem C147_vert_line (lim : R * R) x h :
  plot_vert_line lim x None = (([:: x; x], [:: lim.1; lim.2]), lim) /\
  plot_vert_line lim x (Some h) = (([:: x; x], [:: lim.1; h]), (lim.1, h)) /\
  forall x' ylim, (plot_vert_line (plot_vert_line lim x ylim).2 x' None).2 = (plot_vert_line lim x ylim).2.
Proof. by case: lim. Qed.

(** ** C146 *)
(** The first call draws the distances of the points of the chains (without the starting points) to the
    reference, the k-th at k. *)
Theorem C146_first_call n (p : ilp R) (us : seq 'cV[R]_n) (ref : 'cV[R]_n) :
  ichains p <> [::] -> all (fun c => 1 < size c)%N (ichains p) ->
  chain_points p = [seq Dmx u | u <- us] -> size (ierrors p) <> size us ->
  exists xs, [/\ (plot_chain_error p (Dmx ref)).2 = Ok [:: Curve xs [seq dist u ref | u <- us]],
                 size xs = size us & forall k, (k < size us)%N -> nth (-1) xs k = k%:R].
Proof.
move=> c0 hc hp he; have [h1 h2] := C35_first_call ref c0 hc hp he.
move: h1 h2; rewrite /plot_chain_error; case: (ilp_get_errors p (Dmx ref)) => p' r /= -> ->.
rewrite size_map; eexists; split; first by reflexivity.
  by rewrite size_map size_iota.
by move=> k hk; rewrite (nth_map 0%N) ?size_iota // nth_iota.
Qed.
(** Every later call, whatever the reference, draws the same. *)
Theorem C146_later_calls (p : ilp R) ref ref' a :
  (plot_chain_error p ref).2 = Ok a -> (plot_chain_error (plot_chain_error p ref).1 ref').2 = Ok a.
Proof.
rewrite /plot_chain_error; case E: (ilp_get_errors p ref) => [p' r] /=; case: r E => //= es E [<-].
have ee : ierrors p' = es.
  move: E; rewrite /ilp_get_errors; case: (ichains p) => // c cs; case: ifP => // _; case: ifP => _.
    by case: (rmapM _ _) => // l [<- <-].
  by case=> <- <-.
have := @C35_later_calls_repeat R p ref ref' es; rewrite E /= => /(_ erefl).
case E2: (ilp_get_errors p' ref') => [p2 r2] /= er; rewrite er; cbn [rbind].
have -> : ierrors p2 = es.
  move: E2; rewrite /ilp_get_errors; case: (ichains p') => // [[_ e]|c cs]; first by move: er; rewrite -e.
  case: ifP => _; first by case=> _ e; move: er; rewrite -e.
  case: ifP => _; last by case=> <- _.
  by case: (rmapM _ _) => // [l|e]; case=> <- e2; move: er; rewrite -e2 //= => -[].
by rewrite ee.
Qed.
(** For a problem used through its methods: an empty curve after solve, ValueError before. *)
Theorem C146_reachable (p : ilp R) ref : ilp_reach p ->
  (plot_chain_error p ref).2 = if ichains p is [::] then Err ValueError else Ok [:: Curve [::] [::]].
Proof.
move=> hp; have := C35_reachable_errors ref hp; rewrite /plot_chain_error.
case E: (ilp_get_errors p ref) => [p' r] /= er; rewrite er; case Ec: (ichains p) => [//|c cs]; cbn [rbind].
suff -> : ierrors p' = [::] by [].
move: E; rewrite /ilp_get_errors Ec; case: ifP => _; first by case=> _ e; move: er; rewrite -e Ec.
case: ifP => _; last by case=> <- e; move: er; rewrite -e Ec => -[].
by case: (rmapM _ _) => [l|e]; case=> <- e2; move: er; rewrite -e2 Ec //= => -[].
Qed.
End Pyp.
