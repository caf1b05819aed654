(** Properties C21, C22 and the wrappers of funs.py. *)
Set Warnings "-notation-overridden,-ambiguous-paths".
From mathcomp Require Import all_ssreflect all_algebra.
From Coq Require Import String.
From Verif Require Import Py Nd Spec LinAlg Dmx DmxProofs LgpModel LgpTheory LgpProofs
  FunctionalProofs LinProps LinProps2.
Set Implicit Arguments. Unset Strict Implicit. Unset Printing Implicit Defensive.
Import Order.Theory GRing.Theory Num.Theory.
Local Open Scope ring_scope.

Section LinProps3.
Variable R : realFieldType.
Notation dmx := (dmx R).

(** ** C21 *)
(** Rows of the operator as the constructor reads it: a two-dimensional array as
    it is, anything else as a single row. *)
Definition n_rows (A : nd R) : nat := if ndim A == 2%N then dim A 0 else 1%N.
Definition n_cols (A : nd R) : nat := if ndim A == 2%N then dim A 1 else size (data A).

Theorem C21_init_rejects_iff (A : nd R) b y mean ci co al :
  (lgp_init A b (Some y) mean ci co al = Err ValueError <-> size (data y) <> n_rows A)
  /\ (forall e, lgp_init A b (Some y) mean ci co al = Err e -> e = ValueError)
  /\ is_ok (lgp_init A b None mean ci co al).
Proof.
have key (k : nat) (q : lgp R) :
    let r := if k != size (data y) then Err ValueError else Ok q in
    [/\ r = Err ValueError <-> size (data y) <> k & forall e, r = Err e -> e = ValueError].
  case: eqP => [->|h] /=; split.
  - by split=> // -[].
  - by [].
  - by split=> // _; apply: nesym.
  - by move=> e [].
rewrite /lgp_init /n_rows; case: ifP => _ /=.
  by rewrite eqxx; set q := Lgp _ _ _ _ _ _ _ _ _ _ _ _ _; case: (key (dim A 0) q).
rewrite /np_reshape /= dvd1n /= ?eqxx; set q := Lgp _ _ _ _ _ _ _ _ _ _ _ _ _.
by case: (key 1%N q).
Qed.

(** The attributes of the constructed object. *)
Theorem C21_init_attributes (A : nd R) b y mean ci co al p :
  lgp_init A b y mean ci co al = Ok p ->
  let m := n_rows A in let n := n_cols A in
  [/\ [/\ dr (lA p) = m, dc (lA p) = n
        & forall i j, (i < m)%N -> (j < n)%N ->
            dget (lA p) i j = nth 0 (data A) (i * n + j)],
      lb p = (if b is Some v then dcol (data v) else Dmx (0 : 'cV_m)),
      ly p = (if y is Some v then dcol (data v) else Dmx (0 : 'cV_m)),
      lmean p = (if mean is Some v then dcol (data v) else Dmx (0 : 'cV_n))
    & [/\ lcovi p = odflt (Dmx (1%:M : 'M_n)) ci, lcovo p = odflt (Dmx (1%:M : 'M_m)) co,
          lalpha p = odflt 1 al
        & [/\ l_mud p = None, l_mud_alt p = None, l_map p = None & l_ls p = None]]].
Proof.
rewrite /lgp_init /n_rows /n_cols; case: ifP => _ /=.
  case: ifP => // _ [<-] /=; split=> //.
  by split=> // i j hi hj; rewrite dget_build.
rewrite /np_reshape /= dvd1n /= divn1; case: ifP => // _ [<-] /=; split=> //.
by split=> // i j hi hj; rewrite dget_build.
Qed.

Lemma dcol_holds m (v : nd R) (u : 'cV[R]_m) : holds1 v u -> dcol (data v) = Dmx u.
Proof.
case=> e h; rewrite /dcol e; apply: dbuildE => i j.
by rewrite h (ord1 j).
Qed.

(** From user-level arrays to the object the theorems talk about. *)
Theorem C21_init_inputs m n (A : 'M[R]_(m, n)) b y mu C (S : 'M[R]_m) al a vb vy vm :
  holds2 a A -> holds1 vb b -> holds1 vy y -> holds1 vm mu ->
  exists p, [/\ lgp_init a (Some vb) (Some vy) (Some vm) (Some (Dmx C)) (Some (Dmx S))
                  (Some al) = Ok p,
    inputs p A b y mu C al & lcovo p = Dmx S].
Proof.
move=> [sa ha] hb hy hm.
have ea : dmx_of a = Dmx A.
  by rewrite /dmx_of /dim sa /=; apply: dbuildE => i j; rewrite ha.
rewrite /lgp_init /ndim sa eqxx [rbind _ _]/= ea /= (dcol_holds hb) (dcol_holds hy).
rewrite (dcol_holds hm) /dim sa hy.1 eqxx; eexists; split; by [].
Qed.

(** The default arguments give the standard problem. *)
Theorem C21_init_defaults m n (A : 'M[R]_(m, n)) a : holds2 a A ->
  exists p, [/\ lgp_init a None None None None None None = Ok p,
    inputs p A 0 0 0 1%:M 1 & lcovo p = Dmx (1%:M : 'M_m)].
Proof.
move=> [sa ha].
have ea : dmx_of a = Dmx A.
  by rewrite /dmx_of /dim sa /=; apply: dbuildE => i j; rewrite ha.
rewrite /lgp_init /ndim sa eqxx [rbind _ _]/= ea /dim sa /= eqxx /=.
by eexists; split.
Qed.

(** ** C22 *)
(** Exactly which shapes solve('mud') accepts, for an object built by the
    constructor (columns, and y with as many rows as A). *)
Theorem C22_mud_accepts_iff (p : lgp R) :
  dc (lb p) = 1%N -> dc (ly p) = 1%N -> dc (lmean p) = 1%N -> dr (ly p) = dr (lA p) ->
  is_ok (solve p "mud" None).2 =
  [&& dr (lmean p) == dc (lA p), dr (lcovi p) == dc (lA p), dc (lcovi p) == dc (lA p)
    & (dr (lb p) == 1%N) || (dr (lA p) <= dr (lb p))%N].
Proof.
move=> cb cy cm ry; rewrite solve_mud_unf /pre /mud_step.
have [tA_ tb_ ty_] : [/\ tA (truncate p None) = lA p,
    dr (tb (truncate p None)) = minn (dr (lA p)) (dr (lb p)) /\ dc (tb (truncate p None)) = 1%N
  & ty (truncate p None) = ly p].
  rewrite /truncate /=; split; first by rewrite drows_ge ?minnn.
    by rewrite -minnA minnn.
  by rewrite drows_ge // ry minnn.
case: tb_ => tb1 tb2; rewrite tA_ ty_.
set m := dr (lA p) in ry tb1 *; set n := dc (lA p).
rewrite /dsub; case: dbopP => [mo|]; rewrite ?ry ?cy ?tb1 ?tb2; last first.
  case=> //; move/bdim_None => [h1 h2 h3] /=; apply/esym/negbTE.
  rewrite !negb_and !negb_or; case: (leqP m (dr (lb p))) => hb.
    by case: h1; rewrite (minn_idPl hb).
  by rewrite (minn_idPr (ltnW hb)) in h3; move/eqP: h3 => ->; rewrite !orbT.
move=> e1 _ /=.
case: dmulP => [Am /= /esym e2|/= /nesym/eqP/negbTE ->]; last by [].
rewrite -/n in e2; rewrite e2 eqxx cm => eAm1 eAm2 /=.
have [hb hmo] : ((dr (lb p) == 1%N) || (m <= dr (lb p))%N) = (dr mo == m)
    /\ (dr mo = m \/ m = 1%N /\ dr mo = 0%N).
  case: (leqP m (dr (lb p))) => hb; rewrite ?orbT ?orbF.
    by rewrite (minn_idPl hb) bdim_same in e1; case: e1 => <-; rewrite eqxx; split; [|left].
  rewrite (minn_idPr (ltnW hb)) in e1.
  move: e1 => /bdimP [[e _]|[[e e']|[e e']]].
  - by rewrite e ltnn in hb.
  - have b0 : dr (lb p) = 0%N by case: (dr (lb p)) hb => // k; rewrite e ltnS ltn0.
    by rewrite e' b0 e; split=> //; right.
  - by rewrite e e' !eqxx; split; [|left].
rewrite hb; case: hmo => [emo|[em1 emo]].
- rewrite emo eqxx andbT.
  case: dbopP => [z|]; rewrite eAm1 -/m emo bdim_same; last first.
    by case=> //; rewrite eAm2; case/bdim_None.
  move=> -[ez] ez2 /=; case: dmulP => [AC /= /esym e3|/= /nesym/eqP/negbTE ->]; last by [].
  rewrite -/n in e3; rewrite e3 eqxx /= => eAC1 eAC2.
  case: dmulP => [P /= e4|/= ]; rewrite ?eAC2 -/n; last by move/eqP/negbTE => ->.
  rewrite eAC2 -/n in e4; rewrite e4 eqxx /= => eP1 eP2.
  case: dmulP => [Q /= _|/=]; rewrite ?e4 // => eQ1 eQ2.
  case: dmulP => [K /= _|/=]; rewrite ?eQ2 ?eP2 // => eK1 eK2.
  case: dmulP => [U /= _|/=]; rewrite ?eK2 ?eP1 ?eAC1 -?ez // => eU1 eU2.
  rewrite /dadd; case: dbopP => [//|]; rewrite eU1 eK1 eQ1 e2 e3 bdim_same.
  by case=> //; rewrite cm; case/bdim_None.
rewrite emo em1 /= !andbF.
case: dbopP => [z|//]; rewrite eAm1 -/m emo em1 => -[ez] _ /=.
case: dmulP => [AC /= e3 eAC1 eAC2|//]; case: dmulP => [P /= e4 eP1 eP2|//] /=.
case: dmulP => [Q /= _ eQ1 eQ2|//] /=; case: dmulP => [K /= _ eK1 eK2|//] /=.
by case: dmulP => [U|//]; rewrite eK2 /= eP1 eAC1 -/m em1 -ez.
Qed.

(** The attributes a mis-shaped prior can never get past. *)
Theorem C22_bad_prior_rejected_partial (p : lgp R) :
  dc (lb p) = 1%N -> dc (ly p) = 1%N -> dc (lmean p) = 1%N -> dr (ly p) = dr (lA p) ->
  dr (lmean p) <> dc (lA p) \/ dr (lcovi p) <> dc (lA p) \/ dc (lcovi p) <> dc (lA p) ->
  ~~ is_ok (solve p "mud" None).2.
Proof.
move=> h1 h2 h3 h4; rewrite C22_mud_accepts_iff // => h.
by apply/negP => /and4P [/eqP e1 /eqP e2 /eqP e3 _]; case: h => [|[]].
Qed.

(** ** the wrappers of funs.py *)
(** What a wrapper hands back for the column [x]: [x] itself when [y] is given with
    two or more dimensions, its entries as a flat array otherwise. *)
Definition same_vector n (s : solval R) (x : 'cV[R]_n) :=
  s = SCol (Dmx x) \/ s = SFlat [seq x i 0 | i <- enum 'I_n].

Lemma shape_likeE n y (x : 'cV[R]_n) : same_vector (shape_like y (Dmx x)) x.
Proof.
rewrite /shape_like; case: ifP => _; [by left | right]; congr SFlat.
rewrite /dravel /= muln1 -val_enum_ord -map_comp; apply: eq_map => i /=.
by rewrite divn1 modn1 -[0%N]/(nat_of_ord (ord0 : 'I_1)) dgetE.
Qed.

Section W.
Variables (m n : nat) (A : 'M[R]_(m, n)) (b y : 'cV[R]_m) (mu : 'cV[R]_n) (C : 'M[R]_n).
Variables (S : 'M[R]_m) (a vb vy vm : nd R).
Hypotheses (ha : holds2 a A) (hb : holds1 vb b) (hy : holds1 vy y) (hm : holds1 vm mu).

(** mud_sol reproduces the data, starting from the user's arrays. *)
Theorem C68_mud_sol_reproduces_data : row_free A -> posdef C ->
  exists s x, [/\ mud_sol a (Some vb) (Some vy) (Some vm) (Some (Dmx C)) (Some (Dmx S)) = Ok s,
    same_vector s x & A *m x + b = y].
Proof.
move=> fA pC; have [p [e ip _]] := C21_init_inputs C S 1 ha hb hy hm.
have e' : lin_prob a (Some vb) (Some vy) (Some vm) (Some (Dmx C)) (Some (Dmx S)) None = Ok p.
  by rewrite -e.
have [x ax h] := C01_mud_reproduces_data ip fA pC ltr01.
exists (shape_like (Some vy) (Dmx x)), x; split=> //; last exact: shape_likeE.
by rewrite /mud_sol e' [rbind (Ok p) _]/= ax.
Qed.

(** mud_sol_with_cov returns the same point and a covariance that pushes forward to
    the observation covariance. *)
Theorem C68_mud_sol_with_cov : row_free A -> posdef C -> posdef S ->
  exists s x U, [/\
    mud_sol_with_cov a (Some vb) (Some vy) (Some vm) (Some (Dmx C)) (Some (Dmx S))
      = Ok (s, Dmx U),
    same_vector s x, A *m x + b = y, posdef U & A *m U *m A^T = S].
Proof.
move=> fA pC pS; have [p [e ip eS]] := C21_init_inputs C S 1 ha hb hy hm.
have e' : lin_prob a (Some vb) (Some vy) (Some vm) (Some (Dmx C)) (Some (Dmx S)) None = Ok p.
  by rewrite -e.
exists (shape_like (Some vy) (Dmx (mudx A b y mu C))), (mudx A b y mu C), (upcov A C S).
split; [| exact: shape_likeE | exact: mud_fit | exact: upcov_posdef | exact: upcov_push].
rewrite /mud_sol_with_cov e' [rbind (Ok p) _]/=.
rewrite (solve_mud_altE ip (truncate_none_co ip eS) (posdef_unit pS)) /= scale1r.
by rewrite mud_alt_eq //; [exact: posdef_unit | exact: compat_full].
Qed.

(** map_sol(w) minimises the Bayesian objective with prior covariance w * cov. *)
Theorem C68_map_sol w : posdef C -> posdef S -> 0 < w ->
  exists s x P, [/\
    map_sol a (Some vb) (Some vy) (Some vm) (Some (Dmx C)) (Some (Dmx S)) w = Ok s,
    map_sol_with_cov a (Some vb) (Some vy) (Some vm) (Some (Dmx C)) (Some (Dmx S)) w
      = Ok (s, Dmx P),
    same_vector s x,
    (forall x', bayes_objective A b y mu (w *: C) S x <= bayes_objective A b y mu (w *: C) S x')
    & P = invmx (A^T *m invmx S *m A + invmx (w *: C))].
Proof.
move=> pC pS w0; have [p [e ip eS]] := C21_init_inputs C S w ha hb hy hm.
have pC' := posdefZ w0 pC.
have e2 := solve_mapE ip (truncate_none_co ip eS) (posdef_unit pS) (posdef_unit pC')
   (posdef_unit (precis_posdef A pC' pS)).
exists (shape_like (Some vy) (Dmx (mapx A b y mu (w *: C) S))), (mapx A b y mu (w *: C) S),
  (covp A (w *: C) S).
split=> //; try exact: shape_likeE.
- by rewrite /map_sol /lin_prob e [rbind (Ok p) _]/= e2.
- by rewrite /map_sol_with_cov /lin_prob e [rbind (Ok p) _]/= e2.
- by move=> x'; case: (map_min A b y mu x' pC' pS).
Qed.

End W.

(** ** C69: solve never modifies the inputs *)
Theorem C69_solve_keeps_inputs (p : lgp R) method od :
  let p' := (solve p method od).1 in
  [/\ lA p' = lA p, lb p' = lb p, ly p' = ly p, lmean p' = lmean p
    & [/\ lcovi p' = lcovi p, lcovo p' = lcovo p & lalpha p' = lalpha p]].
Proof.
rewrite /solve; case: (rbind _ _) => [[mo z]|e] //; rewrite /stage.
case: ifP => _; first case: (mud_step _ _ _ _) => // v1.
all: case: ifP => _; first case: (mud_alt_step _ _ _ _ _) => // v2.
all: case: ifP => _; first case: (map_step _ _ _ _) => // v3.
all: case: ifP => _; first case: (ls_step _ _) => // v4.
all: by case: ifP.
Qed.

(** Hence the result of a solve does not depend on what was solved before. *)
Fixpoint after (p : lgp R) (hist : seq (string * option int)) : lgp R :=
  if hist is (s, od) :: h then after (solve p s od).1 h else p.

Theorem C69_history_irrelevant m n (p : lgp R) (A : 'M[R]_(m, n)) b y mu C al hist :
  inputs p A b y mu C al -> inputs (after p hist) A b y mu C al
  /\ (solve (after p hist) "mud" None).2 = (solve p "mud" None).2.
Proof.
move=> ip; have ih : inputs (after p hist) A b y mu C al.
  elim: hist p ip => [//|[s od] h IH] p ip /=; apply: IH.
  have [e1 e2 e3 e4 [e5 _ e7]] := C69_solve_keeps_inputs p s od.
  by case: ip => a1 a2 a3 [a4 a5 a6]; rewrite /inputs e1 e2 e3 e4 e5 e7.
by split=> //; rewrite (solve_mudE ip) (solve_mudE ih).
Qed.

End LinProps3.
