(** Property C112: run_wme_covariance. *)
Set Warnings "-notation-overridden,-ambiguous-paths".
From mathcomp Require Import all_ssreflect all_algebra.
From mathcomp.algebra_tactics Require Import ring.
From Coq Require Import String.
From Verif Require Import Py Nd Spec LinAlg Dmx DmxProofs LgpModel LgpTheory LgpProofs
  FunctionalProofs LinProps LinProps2 LinProps3 LinProps4 LinProps5 WmeModel WmeProps WmeProps2
  UtilModel2 LinExModel LinExProps LinExProps2 LinExProps6 LinExProps7.
Set Implicit Arguments. Unset Strict Implicit. Unset Printing Implicit Defensive.
Import Order.Theory GRing.Theory Num.Theory.
Local Open Scope ring_scope.

Section C112.
Variable R : rcfType.
Variables (G : Type) (reseed : int -> res G) (randn rand : nat -> G -> seq R * G).
Hypothesis rand_size : forall n g, size (rand n g).1 = n.
Hypothesis rand_unit : forall n g x, x \in (rand n g).1 -> 0 <= x < 1.
Notation rwc := (run_wme_covariance reseed randn rand).

(** The mean of the first [N] noise draws of quantity [i]. *)
Definition noise_mean (z : seq R) (mx N i : nat) : R :=
  (\sum_(j < N) nth 0 z (i * mx + j)) / N%:R.

Lemma foldr_maxn (s : seq nat) N : N \in s -> (N <= foldr maxn 0 s)%N.
Proof.
elim: s => //= x s ih; rewrite inE => /orP [/eqP ->|/ih h]; first exact: leq_maxl.
exact: leq_trans h (leq_maxr _ _).
Qed.

Lemma rmapM_all A B (f : A -> res B) (s : seq A) :
  (forall x, is_ok (f x)) -> exists2 r, rmapM f s = Ok r & size r = size s.
Proof.
move=> h; elim: s => [|x s [r e z]]; first by exists [::].
by move: (h x); rewrite /= e; case: (f x) => // y _; exists (y :: r); rewrite //= z.
Qed.

Lemma lwme_covo ops datas sigma y mean ci al (p : lgp R) k n (A : 'M[R]_(k, n)) :
  lwme_init ops datas sigma y mean ci None al = Ok p -> lA p = Dmx A -> lcovo p = Dmx (1%:M : 'M[R]_k).
Proof.
rewrite lwmeE; case: (rmapM _ _) => [rs|] //=; case: (vstack _) => [A0|] //=.
case: (vstack _) => [B|] //=; rewrite /lgp_init /ndim /= dmx_of_nd; case: ifP => // _ [<-] /=.
by move=> ->.
Qed.

(** In the directions that the observations do not see, the variance is the initial one. *)
Lemma upcov_kernel m n (A : 'M[R]_(m, n)) (C : 'M[R]_n) S (x : 'cV[R]_n) :
  C^T = C -> A *m C *m x = 0 -> quad (upcov A C S) x = quad C x.
Proof.
move=> sC h; have e : (gain A C)^T *m x = 0 by rewrite gainT // -!mulmxA [A *m _]mulmxA h mulmx0.
by rewrite /quad /upcov mulmxBr mulmxBl -!mulmxA e !mulmx0 subr0.
Qed.

Lemma quad_scalar n (a : R) (x : 'cV[R]_n) : quad a%:M x = a * sqnorm x.
Proof.
rewrite /quad mul_mx_scalar -scalemxAl mxE; congr (_ * _); rewrite mxE; apply: eq_bigr => i _.
by rewrite mxE.
Qed.
Lemma psd_scalar n (a : R) : 0 <= a -> psd (a%:M : 'M[R]_n).
Proof.
move=> a0; split; first by rewrite tr_scalar_mx.
move=> u; rewrite quad_scalar mulr_ge0 //; apply: sumr_ge0 => i _; by rewrite -expr2 sqr_ge0.
Qed.
Lemma posdef_scalar n (a : R) : 0 < a -> posdef (a%:M : 'M[R]_n).
Proof.
move=> a0; split; first by rewrite tr_scalar_mx.
by move=> u u0; rewrite quad_scalar mulr_gt0 // sqnorm_gt0.
Qed.

Lemma upcov_diff m n (A : 'M[R]_(m, n)) (C : 'M[R]_n) S S' :
  upcov A C S - upcov A C S' = gain A C *m (S - S') *m (gain A C)^T.
Proof.
rewrite /upcov opprB addrC addrA subrK -mulmxBl -mulmxBr; congr (_ *m _ *m _).
by rewrite opprB addrC addrA subrK addrC.
Qed.

Theorem C112_covariances di do_ sigma Ns seed g g0 :
  seeded reseed seed g = Ok g0 -> (0 < do_)%N -> Ns != [::] -> all (fun N => 0 < N)%N Ns ->
  (10%:R ^+ 14)^-1 < sigma ->
  let mx := foldr maxn 0%N Ns in
  let gl := (rand di g0).2 in
  let lam := mat_of di 1 (randn di gl).1 in
  let gM := gen_at randn rand "norm" (do_ * di) (nseq do_ mx) (randn di gl).2 in
  let M : 'M[R]_(do_, di) := \matrix_(i, j) nth 0 (rand (do_ * di) (gM i)).1 j in
  let z := (randn (do_ * mx) (gM do_)).1 in
  exists g' p Us (C : 'M[R]_di),
  [/\ rwc di do_ sigma Ns seed g = (g', Ok (p, Us)), size Us = size Ns, cov_is None C,
      forall i j, 0 <= M i j < 1
    & [/\ forall k, (k < size Ns)%N -> exists U : 'M[R]_di,
            [/\ nth (dzeros 0 0) Us k = Dmx U, posdef U,
                forall x : 'cV[R]_di, M *m C *m x = 0 -> quad U x = quad C x
              & row_free M -> M *m U *m M^T = (sigma ^+ 2 / (nth 0%N Ns k)%:R)%:M],
          forall k l, (k < size Ns)%N -> (l < size Ns)%N -> (nth 0 Ns k <= nth 0 Ns l)%N ->
            exists U U' : 'M[R]_di,
            [/\ nth (dzeros 0 0) Us k = Dmx U, nth (dzeros 0 0) Us l = Dmx U' & psd (U - U')]
        & row_free M -> exists2 x : 'cV[R]_di, answer p "mud" x &
            forall i, (M *m x) i 0 = (M *m lam) i 0 + noise_mean z mx (last 0%N Ns) i * sigma]].
Proof.
move=> es q0; case: Ns => [//|N0 Ns] _; set NN := N0 :: Ns => Npos hs mx gl lam gM M z.
rewrite /run_wme_covariance es [X in match X with pair _ _ => _ end]surjective_pairing.
rewrite [X in match X with pair _ _ => _ end](surjective_pairing (randn di gl)).
set u := (rand di g0).1; set sl := (randn di gl).1; set g2 := (randn di gl).2.
set ref := nd_of_dmx (dmat di 1 sl).
have sref : size (data ref) = dim ref 0 by rewrite /ref /= size_map size_iota muln1.
have zo : size (obs_list (OSeq (nseq do_ mx)) do_) = do_ by rewrite /= size_nseq.
have fl k : (k < do_)%N -> flat_std (nth (SVal 0) (nseq do_ (SVal (0 : R))) k)
    (nth 0%N (obs_list (OSeq (nseq do_ mx)) do_) k) (fun=> 0).
  by move=> hk; rewrite nth_nseq hk.
have := @C108_generates R G randn rand ref (nseq do_ (SVal 0)) do_ (OSeq (nseq do_ mx)) "norm" true g2
  (fun _ _ => 0) q0 isT sref (size_nseq _ _) zo fl.
have -> : all (fits (wme_rows do_ true)) (obs_list (OSeq (nseq do_ mx)) do_) by apply/allP => n _.
case=> Ms [ys [-> sM sy hq]].
rewrite -[gen_at _ _ _ _ _ _ _]/(gM do_).
rewrite [X in match X with pair _ _ => _ end]surjective_pairing; set g3 := (randn _ _).2.
have -> : (do_ == 0%N) = false by case: (do_) q0.
have [C eC hC] : exists2 C, ddiag di (cov_diag u) = Dmx C & @cov_is R di None C.
  exact: (@cov_diag_is R G rand rand_size rand_unit di g0).
rewrite eC.
have pC : posdef C by apply: (cov_is_posdef hC).
have ops1 i : (i < size Ms)%N -> dr (nth (dzeros 0 0) Ms i) = 1%N.
  by rewrite sM => hi; have [] := hq i hi.
have opc i : (i < size Ms)%N -> dc (nth (dzeros 0 0) Ms i) = di.
  by rewrite sM => hi; have [] := hq i hi.
pose dat N := cut_data do_ mx N ys sigma z.
have nq N : nqoi Ms (dat N) (LNum sigma) = do_ by rewrite /nqoi /= sM /dat size_mkseq !minnn.
have init N : exists p, lwme_init Ms (dat N) (LNum sigma) None None (Some (Dmx C)) None None = Ok p.
  have := C28_lwme_default_y (dat N) (LNum sigma) None (Some (Dmx C)) None None (ops_pos ops1).
  have : is_ok (transform_linear_setup Ms (dat N) (LNum sigma)).
    rewrite (C28_succeeds_iff _ _ (ops_pos ops1)) nq q0 /=; apply/andP; split; apply/allP => i.
      by rewrite mem_iota add0n => hi; rewrite C27_accepts_iff ops1 ?sM //= hs.
    by rewrite mem_iota add0n => hi; rewrite !opc ?sM.
  case: (transform_linear_setup _ _ _) => [[A b]|//] _.
  by case: (lwme_init _ _ _ _ _ _ _ _) => // p _; exists p.
pose f N := (p <- lwme_init Ms (dat N) (LNum sigma) None None (Some (Dmx C)) None None ;;
   U <- lgp_updated_cov p None None None ;; Ok (p, U)).
have hf N : exists p U, [/\ f N = Ok (p, U),
    lwme_init Ms (dat N) (LNum sigma) None None (Some (Dmx C)) None None = Ok p
    & lgp_updated_cov p None None None = Ok U].
  have [p ip] := init N; exists p; rewrite /f ip; cbn [rbind].
  have [A [b [[iA _ _ [_ iC _]] _]]] := @wme_inputs R Ms (dat N) (LNum sigma) (ops_pos ops1) di None
     (Some (Dmx C)) None None p 0 C ip erefl erefl (opc 0%N (eq_ind_r (fun n => 0 < n)%N q0 sM)).
  have [_ _ hU] := updated_covE A C 1%:M.
  by eexists; rewrite (hU p iA iC (lwme_covo ip iA)); split.
have [rs ers srs] : exists2 rs, rmapM f NN = Ok rs & size rs = size NN.
  by apply: rmapM_all => N; have [p [U [-> _ _]]] := hf N.
have [_ hrs] := rmapM_ok ers.
have -> : wme_cov_loop do_ mx Ms ys sigma z (Dmx C) NN = Ok rs by exact: ers.
set p0 := Lgp _ _ _ _ _ _ _ _ _ _ _ _ _.
have hk k : (k < size NN)%N -> exists p U, [/\ nth (p0, dzeros 0 0) rs k = (p, U),
    lwme_init Ms (dat (nth 0%N NN k)) (LNum sigma) None None (Some (Dmx C)) None None = Ok p
    & lgp_updated_cov p None None None = Ok U].
  move=> kN; have := hrs 0%N (p0, dzeros 0 0) k kN; have [p [U [-> h1 h2]]] := hf (nth 0%N NN k).
  by case=> <-; exists p, U.
have eM : M = stacked_rows Ms do_ di.
  apply/matrixP => i j; rewrite !mxE; have [_ _ hM _ _] := hq i (ltn_ord i).
  by rewrite hM //= mul0n add0n.
exists g3, (last p0 [seq x.1 | x <- rs]), [seq x.2 | x <- rs], C; split=> //.
- by rewrite size_map.
- move=> i j; rewrite mxE; have hj : (j < size (rand (do_ * di) (gM i)).1)%N.
    by rewrite rand_size; apply: leq_trans (leq_pmull _ q0).
  by have := rand_unit (mem_nth 0 hj).
rewrite eM; clearbody M; subst M; set M := stacked_rows Ms do_ di.
have sd N i : (i < do_)%N -> size (nth [::] (dat N) i) = N.
  by move=> hi; rewrite nth_mkseq // size_mkseq.
have np k : (k < size NN)%N -> (0 < nth 0 NN k)%N by move=> kN; exact: (all_nthP 0%N Npos).
have di0 : dc (nth (dzeros 0 0) Ms 0) = di by rewrite opc ?sM.
have s0 : 0 < sigma by apply: lt_trans hs; exact: tiny_gt0.
have up k : (k < size NN)%N -> nth (dzeros 0 0) [seq x.2 | x <- rs] k
    = Dmx (upcov M C (sigma ^+ 2 / (nth 0%N NN k)%:R)%:M).
  move=> kN; have [p [U [e ip eU]]] := hk k kN; rewrite (nth_map (p0, dzeros 0 0)) ?srs // e.
  apply: Ok_inj; rewrite -eU.
  apply: (wme_updated_cov_uniform ops1 (sd := fun=> sigma) ip (mu := 0) erefl erefl di0 (nq _)) => //.
    exact: np.
  by move=> i hi; rewrite sd.
have pos N : (0 < N)%N -> 0 < sigma ^+ 2 / N%:R :> R by move=> N0'; rewrite divr_gt0 ?exprn_gt0 ?ltr0n.
split.
- move=> k kN; exists (upcov M C (sigma ^+ 2 / (nth 0%N NN k)%:R)%:M); split.
  + exact: up.
  + by apply: upcov_posdef pC _; apply: posdef_scalar; apply: pos (np k kN).
  + by move=> x hx; apply: upcov_kernel => //; case: pC.
  by move=> fM; rewrite upcov_push.
- move=> k l kN lN kl; do 2 eexists; split; [exact: up | exact: up |].
  rewrite upcov_diff -raddfB /=; apply: psd_sandwich; apply: psd_scalar; rewrite subr_ge0 ler_pmul2l ?exprn_gt0 //.
  by rewrite lef_pinv ?posrE ?ltr0n ?np // ler_nat.
move=> fM.
have lN : ((size NN).-1 < size NN)%N by [].
have [p [U [e ip _]]] := hk _ lN.
have -> : last p0 [seq x.1 | x <- rs] = p.
  by rewrite -nth_last size_map srs (nth_map (p0, dzeros 0 0)) ?srs // e.
have -> : last 0%N NN = nth 0%N NN (size NN).-1 by rewrite nth_last.
set N := nth 0%N NN _ in ip *.
have N0' : (0 < N)%N by apply: np.
have NleM : (N <= mx)%N by apply: foldr_maxn; apply: mem_nth.
have pr (x : 'cV[R]_di) (i : 'I_do_) : predict (nth (dzeros 0 0) Ms i) (coords x) 0 = (M *m x) i 0.
  rewrite /predict ops1 ?sM // opc ?sM // mxE; apply: eq_bigr => j _.
  by rewrite coordsE mxE.
have dm (i : 'I_do_) : data_mean (nth [::] (dat N) i) = (M *m lam) i 0 + noise_mean z mx N i * sigma.
  have n0 : N%:R != 0 :> R by rewrite pnatr_eq0 -lt0n.
  rewrite /data_mean sd // /noise_mean.
  have -> : \sum_(j < N) nth 0 (nth [::] (dat N) i) j
      = \sum_(j < N) ((M *m lam) i 0 + nth 0 z (i * mx + j) * sigma).
    apply: eq_bigr => j _; rewrite nth_mkseq // nth_mkseq //; congr (_ + _).
    have [_ _ _ sz hy] := hq i (ltn_ord i); rewrite hy; last first.
      by rewrite sz /= nth_nseq ltn_ord; apply: leq_trans NleM.
    rewrite /= !mul0r if_same addr0 /pred_at opc ?sM // mxE; apply: eq_bigr => l _.
    rewrite [M i l]mxE; congr (_ * _); have [_ hr] := holds1_nd (mat_of di 1 sl).
    by rewrite /ref dmatE hr.
  rewrite big_split sumr_const card_ord -[_ *+ N]mulr_natr mulrDl mulfK // -mulr_suml.
  by congr (_ + _); rewrite mulrAC.
have [||x ax hx] := C109_predicts_means (ops_pos ops1) ip (mu := 0 : 'cV[R]_di) (C := C) erefl erefl
   di0 pC ltr01.
- by rewrite nq => i hi; rewrite ops1 ?sM // sd.
- case/row_freeP: fM => B hB; exists (B *m \col_(i < do_) data_mean (nth [::] (dat N) i)).
  rewrite nq => i hi; rewrite -[i]/(nat_of_ord (Ordinal hi)) pr mulmxA hB mul1mx mxE.
  by [].
exists x => // i; rewrite -pr hx ?nq // dm.
Qed.

(** No numbers of observations, or no output: ValueError; a deviation that is not larger than
    1e-14: AssertionError. *)
Theorem C112_rejects di do_ sigma Ns seed g g0 : seeded reseed seed g = Ok g0 ->
  Ns = [::] \/ do_ = 0%N \/ sigma <= (10%:R ^+ 14)^-1 ->
  (rwc di do_ sigma Ns seed g).2 =
  Err (if (Ns == [::]) || (do_ == 0%N) then ValueError else AssertionError).
Proof.
move=> es h; rewrite /run_wme_covariance es.
case: (rand di g0) => [u g1]; case: (randn di g1) => [sl g2].
case: Ns h => [//|N0 Ns] h; set NN := N0 :: Ns; set mx := foldr maxn 0%N NN.
case: (posnP do_) => [->|q0].
  by rewrite /random_linear_wme_problem /=; case: (randn _ _) => z g3.
set ref := nd_of_dmx (dmat di 1 sl).
have sref : size (data ref) = dim ref 0 by rewrite /ref /= size_map size_iota muln1.
have zo : size (obs_list (OSeq (nseq do_ mx)) do_) = do_ by rewrite /= size_nseq.
have fl k : (k < do_)%N -> flat_std (nth (SVal 0) (nseq do_ (SVal (0 : R))) k)
    (nth 0%N (obs_list (OSeq (nseq do_ mx)) do_) k) (fun=> 0).
  by move=> hk; rewrite nth_nseq hk.
have := @C108_generates R G randn rand ref (nseq do_ (SVal 0)) do_ (OSeq (nseq do_ mx)) "norm" true g2
  (fun _ _ => 0) q0 isT sref (size_nseq _ _) zo fl.
have -> : all (fits (wme_rows do_ true)) (obs_list (OSeq (nseq do_ mx)) do_) by apply/allP => n _.
case=> Ms [ys [-> sM sy hq]].
set gz := gen_at _ _ _ _ _ _ _; case Ez: (randn (do_ * mx) gz) => [z g3].
have {}h : sigma <= (10%:R ^+ 14)^-1 by case: h => // -[] // e; rewrite e in q0.
have [r1 _ _ _ _] := hq 0%N q0.
have e : lwme_init Ms (cut_data do_ mx N0 ys sigma z) (LNum sigma) None None
    (Some (ddiag di (cov_diag u))) None None = Err AssertionError.
  rewrite /lwme_init; case: Ms sM r1 {hq} => [|m Ms] /=; first by move=> e; rewrite -e in q0.
  case: (do_) q0 => // q _ _ /= r1.
  by rewrite {1}/transform_linear_map r1 /= ltNge h.
by rewrite /wme_cov_loop /NN /= e.
Qed.
End C112.
