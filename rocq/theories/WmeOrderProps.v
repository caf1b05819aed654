(** Property C157: the order of the observations of a quantity of interest does not matter to
    LinearWMEProblem and transform_linear_map, and the order of the quantities does not matter to the solutions. *)
Set Warnings "-notation-overridden,-ambiguous-paths".
From mathcomp Require Import all_ssreflect all_algebra fingroup perm.
From Coq Require Import String.
From Verif Require Import Py Nd Spec LinAlg Dmx DmxProofs LgpModel LgpTheory LgpProofs LinProps LinProps3
  WmeModel WmeProps WmeProps2 OrderProps RotProps.
Set Implicit Arguments. Unset Strict Implicit. Unset Printing Implicit Defensive.
Import Order.Theory GRing.Theory Num.Theory.
Local Open Scope ring_scope.

Section Spec.
Variable R : rcfType.
(** The rows of an operator, and the deviations, in another order.  An operator of one row predicts
    every observation, a number is the deviation of every observation. *)
Definition op_pick (sh : seq nat) (op : dmx R) : dmx R :=
  if dr op == 1%N then op else dbuild (dr op) (dc op) (fun i j => dget op (nth 0%N sh i) j).
Definition std_pick (sh : seq nat) (std : stdarg R) : stdarg R :=
  match std with SNum r => SNum r | SSeq s => SSeq (pick sh s) end.
Definition std_sized (n : nat) (std : stdarg R) : Prop := match std with SNum _ => True | SSeq s => size s = n end.
(** The arguments of one quantity of interest: one row of the operator and one deviation per datum. *)
Definition one_per_datum (op : dmx R) (dat : seq R) (std : stdarg R) : Prop :=
  (dr op = 1%N \/ dr op = size dat) /\ std_sized (size dat) std.
End Spec.

Section Proofs.
Variable R : rcfType.

Section One.
Variables (op : dmx R) (dat : seq R) (std : stdarg R) (sh : seq nat).
Hypotheses (hs : perm_eq sh (iota 0 (size dat))) (h1 : one_per_datum op dat std).
Notation N := (size dat).

Lemma sum_pick (f g : nat -> R) : (forall i, (i < N)%N -> g i = f (nth 0%N sh i)) ->
  \sum_(i < N) g i = \sum_(i < N) f i.
Proof.
move=> h; have ss : size sh = N by rewrite (perm_size hs) size_iota.
transitivity (\sum_(i <- sh) f i); last first.
  by rewrite (perm_big _ hs) /= -(big_mkord xpredT f) /index_iota subn0.
rewrite (big_nth 0%N) ss -(big_mkord xpredT g) /= big_nat [RHS]big_nat.
by apply: eq_bigr => i /andP[_ hi]; rewrite h.
Qed.

Lemma b_pick (d d' : nat -> R) : (forall i, (i < N)%N -> d' i = d (nth 0%N sh i)) ->
  wme_b (pick sh dat) d' = wme_b dat d.
Proof.
move=> h; rewrite /wme_b (size_pick hs) //; congr (_ * _).
apply: (sum_pick (f := fun i => nth 0 dat i / d i) (g := fun i => nth 0 (pick sh dat) i / d' i)) => i hi.
by rewrite (nth_pick hs) // h.
Qed.

Theorem C157_transform_linear_map :
  transform_linear_map (op_pick sh op) (pick sh dat) (std_pick sh std) = transform_linear_map op dat std.
Proof.
have [[e1|eN] hst] := h1.
  rewrite /op_pick e1 eqxx /transform_linear_map e1 /=.
  case: std hst => [r|s] hs' //=; rewrite (size_pick hs) //; case: guard => //= _.
  by rewrite (b_pick (d := fun _ => r)).
rewrite /op_pick; case: eqP => [e1|n1].
  rewrite /transform_linear_map e1 /=.
  case: std hst => [r|s] hs' //=; rewrite (size_pick hs) //; case: guard => //= _.
  by rewrite (b_pick (d := fun _ => r)).
rewrite /transform_linear_map /= eN; case: ltnP => lt1; last first.
  have N0 : N = 0%N by move: n1 lt1; rewrite eN; case: N => [|[|]].
  case: std hst => [r|s] hs' //=; rewrite (size_pick hs) //; case: guard => //= _.
  rewrite (b_pick (d := fun _ => r)) //; congr (Ok (Row2 (dscale _ _), _)).
  by apply: dmx_ext; rewrite /= ?eN // => i j; rewrite N0.
rewrite (size_pick hs) // eqxx /=.
set s := match std with SNum r => nseq N r | SSeq s => s end.
have -> : match std_pick sh std with SNum r => nseq N r | SSeq s => s end = pick sh s.
  by rewrite /s; case: std => [r|l] //=; rewrite (pick_nseq hs).
have ss : size s = N by rewrite /s; case: std hst => [r|l] //= _; rewrite size_nseq.
rewrite (size_pick hs) // ss eqxx /= (perm_has _ (pick_perm hs ss)); case: guard => //= _.
rewrite (b_pick (d := nth 0 s)); last by move=> i hi; rewrite (nth_pick hs).
congr (Ok (Row1 _, _)); rewrite /wme_A /=; apply/eq_in_map => j; rewrite mem_iota add0n => /andP[_ hj].
rewrite eN; apply: (sum_pick (f := fun i => (nth 0 s i * sqrtn R N)^-1 * dget op i j)
  (g := fun i => (nth 0 (pick sh s) i * sqrtn R N)^-1 * dget (dbuild N (dc op) (fun i0 j0 => dget op (nth 0%N sh i0) j0)) i j)) => i hi.
by rewrite (nth_pick hs) // dget_build.
Qed.
End One.

(** ** Several quantities of interest *)
Section Many.
Variables (ops ops' : seq (dmx R)) (datas datas' : seq (seq R)) (stds stds' : stdlist R).
(** The same number of quantities; those of each position are reordered by the order [shs i]. *)
Variable shs : nat -> seq nat.
Definition same_but_order : Prop :=
  [/\ size ops' = size ops, size datas' = size datas & nstd (size datas') stds' = nstd (size datas) stds] /\
  forall i, (i < nqoi ops datas stds)%N ->
    [/\ perm_eq (shs i) (iota 0 (size (nth [::] datas i))),
        one_per_datum (nth (m0 R) ops i) (nth [::] datas i) (std_at stds i),
        nth (m0 R) ops' i = op_pick (shs i) (nth (m0 R) ops i),
        nth [::] datas' i = pick (shs i) (nth [::] datas i)
      & std_at stds' i = std_pick (shs i) (std_at stds i)].
Hypothesis h : same_but_order.

Lemma same_rows : rmapM (@tl_of R) (zip3 ops' datas' (stds_of datas' stds')) = rmapM (@tl_of R) (zip3 ops datas (stds_of datas stds)).
Proof.
have [[so sd sn] hi] := h.
have sz : size (zip3 ops' datas' (stds_of datas' stds')) = size (zip3 ops datas (stds_of datas stds)).
  by rewrite !size_zip3 /nqoi so sn sd.
have rmapME T U (f : T -> res U) l l' : map f l = map f l' -> rmapM f l = rmapM f l'.
  by elim: l l' => [|x l ih] [|x' l'] //= [-> /ih ->].
apply: rmapME; apply: (@eq_from_nth _ (Err ValueError)); rewrite !size_map // => i; rewrite sz => lt.
rewrite !(nth_map (m0 R, ([::], SNum 0))) ?sz //.
have ik : (i < nqoi ops datas stds)%N by rewrite -size_zip3.
have [i1 i2] := lt_nqoi ik.
rewrite !nth_zip3 ?sz // !nth_stds_of ?sd //.
have [p1 p2 -> -> ->] := hi _ ik; rewrite /tl_of /=; exact: C157_transform_linear_map.
Qed.

Theorem C157_observations :
  transform_linear_setup ops' datas' stds' = transform_linear_setup ops datas stds /\
  forall y mean ci co al, lwme_init ops' datas' stds' y mean ci co al = lwme_init ops datas stds y mean ci co al.
Proof. by split=> [|y mean ci co al]; rewrite ?setupE ?lwmeE same_rows. Qed.
End Many.

(** ** The order of the quantities *)
Lemma holds2_nd k l (M : 'M[R]_(k, l)) : holds2 (nd_of_dmx (Dmx M)) M.
Proof.
split=> // i j; have := dmx_of_nd (Dmx M) => /(congr1 (fun a => dget a i j)).
by rewrite dgetE /dmx_of dget_build.
Qed.
Lemma holds1_nd k (v : 'cV[R]_k) : holds1 (nd_of_dmx (Dmx v)) v.
Proof.
split=> [|i]; first by rewrite /= size_map size_iota muln1.
by have [_ /(_ i ord0)] := holds2_nd v; rewrite muln1 addn0.
Qed.

Lemma lwme_rows k n ops datas stds rs (f : nat -> rowval R * R) :
  size ops = k -> size datas = k -> nstd k stds = k -> (0 < k)%N ->
  (forall i : 'I_k, (0 < dr (nth (m0 R) ops i))%N /\ dc (nth (m0 R) ops i) = n) ->
  rmapM (@tl_of R) (zip3 ops datas (stds_of datas stds)) = Ok rs -> (forall i, (i < k)%N -> nth (Row1 [::], 0) rs i = f i) ->
  [/\ size rs = k,
      vstack [seq rowval2 r.1 | r <- rs] = Ok (Dmx (\matrix_(i < k, j < n) dget (rowval2 (f i).1) 0 j))
    & vstack [seq drow [:: r.2] | r <- rs] = Ok (Dmx (\col_(i < k) (f i).2))].
Proof.
move=> so sd sn k0 ho hrs hf.
have ek : nqoi ops datas stds = k by rewrite /nqoi so sd sn !minnn.
have ops1 : all (fun op => (0 < dr op)%N) ops.
  by apply/(all_nthP (m0 R)) => i; rewrite so => hi; have [] := ho (Ordinal hi).
have [sr hi] := rows_of_setup hrs; have [a1 ad] := all_rows1 ops1 hrs.
rewrite ek in sr hi ad; split=> //; last first.
  rewrite (setup_vstack hrs) sr k0; congr Ok; apply: dbuildE => i j.
  by rewrite mxE hf.
rewrite (vstack1 (m0 R) a1) size_map sr k0 /=.
have dn i : (i < k)%N -> dc (nth (m0 R) [seq rowval2 r.1 | r <- rs] i) = n.
  by move=> ik; rewrite ad //; have [] := ho (Ordinal ik).
rewrite -[head _ _]nth0 (dn _ k0).
have -> : all (fun m => dc m == n) [seq rowval2 r.1 | r <- rs].
  by apply/(all_nthP (m0 R)) => i; rewrite size_map sr => /dn ->.
congr Ok; apply: dbuildE => i j.
by rewrite mxE (nth_map (Row1 [::], 0)) ?sr // hf.
Qed.

Theorem C157_quantities k n ops ops' datas datas' stds stds' y y' mean ci co co' al p
    (vy : 'cV[R]_k) (mu : 'cV[R]_n) (C : 'M[R]_n) (S : 'M[R]_k) (s : 'S_k) :
  [/\ size ops = k, size datas = k & nstd k stds = k] -> [/\ size ops' = k, size datas' = k & nstd k stds' = k] ->
  (forall i : 'I_k, (0 < dr (nth (m0 R) ops i))%N /\ dc (nth (m0 R) ops i) = n) ->
  (forall i : 'I_k, [/\ nth (m0 R) ops' i = nth (m0 R) ops (s i), nth [::] datas' i = nth [::] datas (s i)
     & std_at stds' i = std_at stds (s i)]) ->
  col_arg y vy -> col_arg y' (\col_i vy (s i) 0) -> col_arg mean mu -> cov_arg ci C ->
  cov_arg co S -> cov_arg co' (\matrix_(i, j) S (s i) (s j)) ->
  lwme_init ops datas stds y mean ci co al = Ok p ->
  exists p', [/\ lwme_init ops' datas' stds' y' mean ci co' al = Ok p', relisted s (1%g : 'S_n) p p',
    l_up_cov p = None /\ l_up_cov p' = None & l_cov_p p = None /\ l_cov_p p' = None].
Proof.
move=> [so sd sn] [so' sd' sn'] ho hp hy hy' hm hc hS hS'.
rewrite !lwmeE; case er: (rmapM _ (zip3 ops _ _)) => [rs|] //=.
have k0 : (0 < k)%N || (k == 0%N) by case: (k).
have ek : nqoi ops datas stds = k by rewrite /nqoi so sd sn !minnn.
have ek' : nqoi ops' datas' stds' = k by rewrite /nqoi so' sd' sn' !minnn.
have [sr hr] := rows_of_setup er; rewrite ek in sr hr.
case/orP: k0 => [k0|/eqP k0]; last by have : size rs = 0%N by [rewrite sr]; case: (rs).
pose f i := nth (Row1 [::], 0) rs i.
pose f' i := f (if insub i is Some i' then s (i' : 'I_k) : nat else 0%N).
have f'E (i : 'I_k) : f' i = f (s i) by rewrite /f' valK.
have er' : exists2 rs', rmapM (@tl_of R) (zip3 ops' datas' (stds_of datas' stds')) = Ok rs' &
    forall i, (i < k)%N -> nth (Row1 [::], 0) rs' i = f' i.
  have okm : is_ok (rmapM (@tl_of R) (zip3 ops' datas' (stds_of datas' stds'))).
    rewrite rmapM_is_ok; apply/(all_nthP (m0 R, ([::], SNum 0))) => i; rewrite size_zip3 ek' => ik.
    rewrite nth_zip3 ?size_zip3 ?ek' // nth_stds_of ?sd' //.
    have [-> -> ->] := hp (Ordinal ik); rewrite /tl_of /=.
    by have := hr (s (Ordinal ik)) (ltn_ord _) => ->.
  case er' : (rmapM _ _) okm => [rs'|] // _; exists rs' => // i ik.
  have [_ hr'] := rows_of_setup er'; rewrite ek' in hr'.
  have := hr' i ik; have [-> -> ->] := hp (Ordinal ik).
  rewrite (hr (s (Ordinal ik)) (ltn_ord _)) -[i in f' i]/(val (Ordinal ik)) f'E => e0; rewrite /f; exact/esym/(Ok_inj e0).
case: er' => rs' er' hf'.
have ho' (i : 'I_k) : (0 < dr (nth (m0 R) ops' i))%N /\ dc (nth (m0 R) ops' i) = n.
  by have [-> _ _] := hp i; exact: ho.
have [_ v1 v2] := lwme_rows so sd sn k0 ho er (fun i _ => erefl (f i)).
have [_ v1' v2'] := lwme_rows so' sd' sn' k0 ho' er' hf'.
rewrite v1 v2 er' /= v1' v2' /=.
set A := \matrix_(i, j) _; set b := \col_i _; set A' := \matrix_(i, j) _; set b' := \col_i _ => hi.
have eA : A' = \matrix_(i, j) A (s i) ((1%g : 'S_n) j) by apply/matrixP => i j; rewrite !mxE perm1 f'E.
have eb : b' = \col_i b (s i) 0 by apply/matrixP => i j; rewrite !mxE f'E.
have em : \col_j mu ((1%g : 'S_n) j) 0 = mu by apply/matrixP => i j; rewrite !mxE perm1 ord1.
have eC : \matrix_(i, j) C ((1%g : 'S_n) i) ((1%g : 'S_n) j) = C by apply/matrixP => i j; rewrite !mxE !perm1.
have := @C156_constructor R k n s 1%g (nd_of_dmx (Dmx A)) (nd_of_dmx (Dmx A')) (Some (nd_of_dmx (Dmx b)))
  (Some (nd_of_dmx (Dmx b'))) y y' mean mean ci ci co co' al A b vy mu C S (holds2_nd A) (holds1_nd b) hy hm hc hS.
rewrite -eA -eb em eC => /(_ (holds2_nd A') (holds1_nd b') hy' hm hc hS') [q [q' [e1 e2 rel u v]]].
move: hi; rewrite e1 => e0; have ep := Ok_inj e0; rewrite -ep; by exists q'.
Qed.

(** Hence every solution is the same vector. *)
Theorem C157_same_solutions k n ops ops' datas datas' stds stds' y y' mean ci co co' al p p'
    (vy : 'cV[R]_k) (mu : 'cV[R]_n) (C : 'M[R]_n) (S : 'M[R]_k) (s : 'S_k) me :
  [/\ size ops = k, size datas = k & nstd k stds = k] -> [/\ size ops' = k, size datas' = k & nstd k stds' = k] ->
  (forall i : 'I_k, (0 < dr (nth (m0 R) ops i))%N /\ dc (nth (m0 R) ops i) = n) ->
  (forall i : 'I_k, [/\ nth (m0 R) ops' i = nth (m0 R) ops (s i), nth [::] datas' i = nth [::] datas (s i)
     & std_at stds' i = std_at stds (s i)]) ->
  col_arg y vy -> col_arg y' (\col_i vy (s i) 0) -> col_arg mean mu -> cov_arg ci C ->
  cov_arg co S -> cov_arg co' (\matrix_(i, j) S (s i) (s j)) -> computing me ->
  lwme_init ops datas stds y mean ci co al = Ok p -> lwme_init ops' datas' stds' y' mean ci co' al = Ok p' ->
  (solve p' me None).2 = (solve p me None).2.
Proof.
move=> h1 h2 h3 h4 h5 h6 h7 h8 h9 h10 hm h11 h12.
have [q [e rel _ _]] := C157_quantities h1 h2 h3 h4 h5 h6 h7 h8 h9 h10 h11.
move: e; rewrite h12 => e0; have eq := Ok_inj e0; rewrite -eq in rel.
have one a a' : listed_vec (1%g : 'S_n) a a' -> a' = a.
  by case=> x -> ->; congr Dmx; apply/matrixP => i j; rewrite mxE perm1 ord1.
have := C156_order rel hm.
case: (solve p me None).2 => [v|e]; case: (solve p' me None).2 => [v'|e'] //=; last by move=> ->.
case: v => [a|[|a [|b [|c [|d l]]]]|x|j| |nm] //; case: v' => [a'|[|a' [|b' [|c' [|d' l']]]]|x'|j'| |nm'] //=.
  by move=> /one ->.
by case=> /one -> /one -> /one ->.
Qed.
End Proofs.
