(** Properties C107 (noisy_linear_data) and C108 (random_linear_wme_problem). *)
Set Warnings "-notation-overridden,-ambiguous-paths".
From mathcomp Require Import all_ssreflect all_algebra.
From Coq Require Import String.
From Verif Require Import Py Nd Spec LinAlg Dmx DmxProofs LgpModel LgpTheory LgpProofs
  FunctionalProofs LinProps LinProps2 LinProps3 WmeModel WmeProps WmeProps2 UtilModel2 UtilProps3
  LinExModel LinExProps.
Set Implicit Arguments. Unset Strict Implicit. Unset Printing Implicit Defensive.
Import Order.Theory GRing.Theory Num.Theory.
Local Open Scope ring_scope.

Section Noisy.
Variable R : rcfType.
Notation nd := (nd R).
Notation dmx := (dmx R).
Variables (G : Type) (reseed : int -> res G) (randn rand : nat -> G -> seq R * G).

(** Prediction number [k] of the linear map [M] at the parameters [ref]. *)
Definition pred_at (M : dmx) (ref : nd) (k : nat) : R :=
  \sum_(j < dc M) dget M k j * nth 0 (data ref) j.

Lemma dget_mul (a b c : dmx) i j : dmul a b = Ok c -> (i < dr a)%N -> (j < dc b)%N ->
  dget c i j = \sum_(k < dc a) dget a i k * dget b k j.
Proof.
case: a b => m n A [n' q B] /=; rewrite /dmul /=; case: eqP => // e [<-] hi hj; subst n'.
rewrite -[i]/(nat_of_ord (Ordinal hi)) -[j]/(nat_of_ord (Ordinal hj)) dgetE mxE castmx_id.
by apply: eq_bigr => k _; rewrite !dgetE.
Qed.

Lemma noisyE M ref s n g : Nd.shape s = [:: n] -> size (data ref) = dc M ->
  noisy randn M ref s n g =
  ((randn n g).2,
   if bdim (dr M) n is Some r
   then Ok [seq pred_at M ref (bidx (dr M) i)
                + nth 0 (data s) (bidx n i) * nth 0 (randn n g).1 (bidx n i) | i <- iota 0 r]
   else Err ValueError).
Proof.
move=> ss sr; rewrite /noisy /np_diag ss.
case Er: (dmul M (dcol (data ref))) => [r|e]; last first.
  by move: Er; case: dmulP => //= h _; case: h; rewrite sr.
have [_ r1 r2] := dmul_okE Er; cbn [rbind]; case: (randn n g) => z g' /=; congr pair.
case Ed: (dmul _ _) => [w|e]; last by move: Ed; case: dmulP => //= h _; case: h.
have [_ w1 w2] := dmul_okE Ed; cbn [rbind] in *; rewrite /= in r1 r2 w1 w2.
rewrite /dadd /dbop r1 r2 w1 w2 bdim_same; case Eb: (bdim (dr M) n) => [k|] //=; congr Ok.
rewrite /dravel /= muln1; apply/eq_in_map => i; rewrite mem_iota add0n => /andP [_ ik].
rewrite dget_build ?modn1 // divn1 //.
have h1 : (bidx (dr M) i < dr M)%N.
  rewrite /bidx; case: eqP => [->//|ne].
  by case: (bdimP Eb) => [[_ <-]|[[//]|[_ <-]]].
have h2 : (bidx n i < n)%N.
  rewrite /bidx; case: eqP => [->//|ne].
  by case: (bdimP Eb) => [[-> <-]|[[_ <-]|[]]].
rewrite (dget_mul Er) //= (dget_mul Ed) //; congr (_ + _).
  by apply: eq_bigr => j _; rewrite dget_build ?sr.
rewrite /= (bigD1 (Ordinal h2)) //= big1 ?addr0 => [|j ji].
  by rewrite !dget_build ?eqxx //= muln1 addn0.
rewrite dget_build //= [_ == _]eq_sym; case: eqP => [e|]; last by rewrite mul0r.
by case/eqP: ji; apply: val_inj.
Qed.

(** ** C107 *)
Notation noisy_data := (noisy_linear_data randn).

(** A single standard deviation, or a flat array of them: data point i is the prediction (of the
    only row, or of row i) plus the i-th deviation times the i-th of [num_data] fresh draws. *)
Definition flat_std (std : stdv R) n (sd : nat -> R) : Prop :=
  match std with
  | SVal x => forall i, sd i = x
  | SArr a => Nd.shape a = [:: n] /\ size (data a) = n /\ forall i, sd i = nth 0 (data a) i
  | SList _ => False
  end.

Theorem C107_data (M : dmx) (ref : nd) std num_data g sd :
  let n := odflt (dr M) num_data in
  ndim ref != 0%N -> size (data ref) = dim ref 0 -> dc M = dim ref 0 ->
  dr M = 1%N \/ dr M = n -> flat_std std n sd ->
  exists2 y, noisy_data M ref std num_data g = ((randn n g).2, Ok y) &
    size y = n /\ forall i, (i < n)%N ->
      nth 0 y i = pred_at M ref (if dr M == 1%N then 0%N else i) + sd i * nth 0 (randn n g).1 i.
Proof.
move=> n r0 sr eM hM hs; rewrite /noisy_linear_data -/n r0 eM eqxx /=.
have -> : (dr M == 1%N) || (dr M == n) by case: hM => ->; rewrite eqxx ?orbT.
have [s es [ss hd]] : exists2 s, std_array std n = Ok s & Nd.shape s = [:: n] /\
    forall i, (i < n)%N -> sd i = nth 0 (data s) i.
  case: std hs => [x /= hx|a [sa [za ha]]|//].
    by eexists; first reflexivity; rewrite /= size_nseq; split=> // i hi; rewrite nth_nseq hi.
  by exists a; [rewrite /= za eqxx | split=> // i _].
cbn [rbind guard]; rewrite es noisyE ?eM //.
have -> : bdim (dr M) n = Some n by case: hM => ->; rewrite /bdim ?eqxx //; case: eqP => [<-|].
eexists; first reflexivity.
rewrite size_map size_iota; split=> // i hi; rewrite (nth_map 0%N) ?size_iota // nth_iota // add0n.
by rewrite hd // (bidx_lt hi).
Qed.

(** Which arguments are accepted.  An array of deviations must be flat: a two-dimensional one
    passes the length check but fails unless its diagonal has [num_data] entries. *)
Definition usable_std (std : stdv R) (n : nat) : bool :=
  match std with
  | SVal _ => true
  | SList _ => false
  | SArr a => (size (data a) == n) &&
      match Nd.shape a with [:: _] => true | [:: k; l] => minn k l == n | _ => false end
  end.

Theorem C107_accepts (M : dmx) (ref : nd) std num_data g :
  let n := odflt (dr M) num_data in
  ndim ref != 0%N -> size (data ref) = dim ref 0 -> (if std is SArr a then nd_wf a else true) ->
  is_ok (noisy_data M ref std num_data g).2 =
    [&& dc M == dim ref 0, (dr M == 1%N) || (dr M == n) & usable_std std n] /\
  (forall e, (noisy_data M ref std num_data g).2 = Err e ->
     e = if (dc M == dim ref 0) && ((dr M == 1%N) || (dr M == n)) then
           match std with
           | SList _ => AttributeError
           | SArr a => if size (data a) == n then ValueError else AssertionError
           | SVal _ => e
           end
         else AssertionError).
Proof.
move=> n r0 sr wf; rewrite /noisy_linear_data -/n r0; cbn [rbind guard].
case: (eqVneq (dc M) (dim ref 0)) => [eM|_]; cbn [rbind guard andb]; last by split=> // e [].
case hM: ((dr M == 1%N) || (dr M == n)); cbn [rbind guard andb]; last by split=> // e [].
have hM' : dr M = 1%N \/ dr M = n by case/orP: hM => /eqP; [left|right].
case: std wf => [x _|a wf|//]; cbn [std_array rbind].
- have [y + _] := @C107_data M ref (SVal x) num_data g (fun=> x) r0 sr eM hM' (fun=> erefl).
  rewrite /noisy_linear_data -/n r0 eM eqxx hM; cbn [rbind guard std_array andb] => ->.
  by split.
- rewrite /usable_std; case: (eqVneq (size (data a)) n) => [sa|_] /=; last by split=> // e [].
  move: wf; rewrite /nd_wf sa; case Ea: (Nd.shape a) => [|k [|l [|q sh]]] /= wf.
  + rewrite /noisy /np_diag Ea.
    by case: dmulP => [r _ _ _|_]; cbn [rbind]; split=> // e [].
  + have hn : Nd.shape a = [:: n].
      by rewrite Ea; move/eqP: wf; rewrite muln1 => <-.
    rewrite noisyE ?eM //=.
    have -> : bdim (dr M) n = Some n by case: hM' => ->; rewrite /bdim ?eqxx //; case: eqP => [<-|].
    by split.
  + rewrite /noisy /np_diag Ea.
    case Er: (dmul M (dcol (data ref))) => [r|e]; last first.
      by move: Er; case: dmulP => //= h _; case: h; rewrite sr.
    have [_ r1 r2] := dmul_okE Er; cbn [rbind]; case: (randn n g) => z g' /=.
    case: dmulP => /= [w c1|c1]; rewrite size_map size_iota in c1; last first.
      by move/eqP/negbTE: c1 => ->; split=> // e [].
    move=> w1 w2; rewrite c1 eqxx /dadd /dbop r1 r2 w1 w2 /=.
    have -> : bdim (dr M) 1 = Some (dr M) by rewrite /bdim; case: eqP.
    by split.
  + rewrite /noisy /np_diag Ea.
    by case: dmulP => [r _ _ _|_]; cbn [rbind]; split=> // e [].
- by move=> l _; split=> // e [].
Qed.

(** ** C108 *)
Lemma flat_array std n sd : flat_std std n sd ->
  exists2 s, std_array std n = Ok s & Nd.shape s = [:: n] /\
    forall i, (i < n)%N -> sd i = nth 0 (data s) i.
Proof.
case: std => [x /= hx|a [sa [za ha]]|//].
  by eexists; first reflexivity; rewrite /= size_nseq; split=> // i hi; rewrite nth_nseq hi.
by exists a; [rewrite /= za eqxx | split=> // i _].
Qed.

Notation wme_problem := (random_linear_wme_problem randn rand).

(** The generator used for the operators, and its state when QoI number [k] is started: per QoI
    [q * d] numbers are drawn for the operator, then one normal number per observation. *)
Definition gdraw (dist : string) := if String.eqb dist "normal" then randn else rand.
Definition gen_at (dist : string) (qd : nat) (ns : seq nat) (g : G) (k : nat) : G :=
  foldl (fun g n => (randn n (gdraw dist qd g).2).2) g (take k ns).

(** The number of observations of each QoI. *)
Definition obs_list (o : wobs) (q : nat) : seq nat :=
  match o with ONum n => nseq q n | OSeq l => l end.

(** [n] deviations can be added to the predictions of [m] rows. *)
Definition fits (m n : nat) : bool := [|| m == 1%N, n == 1%N | m == n].

Lemma bdim_fits m n : (bdim m n != None) = fits m n.
Proof.
by rewrite /bdim /fits; case: (eqVneq m n); case: (eqVneq m 1%N); case: (eqVneq n 1%N).
Qed.

Lemma dget_mat r c (s : seq R) i j : (i < r)%N -> (j < c)%N -> dget (dmat r c s) i j = nth 0 s (i * c + j).
Proof. by move=> hi hj; rewrite dget_build. Qed.

Definition wme_rows (q : nat) (repeated : bool) := if repeated then 1%N else q.

(** What QoI number [k] consists of. *)
Definition wme_qoi_ok (q : nat) dist repeated ref (ns : seq nat) (sd : nat -> nat -> R) g
    (k : nat) (M : dmx) (y : seq R) : Prop :=
  let d := dim ref 0 in
  let m := wme_rows q repeated in
  let n := nth 0%N ns k in
  let gk := gen_at dist (q * d) ns g k in
  let ops := gdraw dist (q * d) gk in
  let z := (randn n ops.2).1 in
  [/\ dr M = m, dc M = d,
      forall i j, (i < m)%N -> (j < d)%N -> dget M i j = nth 0 ops.1 (i * d + j),
      size y = (if m == 1%N then n else m) &
      forall i, (i < size y)%N ->
        nth 0 y i = pred_at M ref (if m == 1%N then 0%N else i)
                    + (if n == 1%N then sd k 0%N * nth 0 z 0 else sd k i * nth 0 z i)].

Lemma wme_loopE q dist repeated ref (l : seq (nat * stdv R)) sd g :
  (0 < q)%N -> size (data ref) = dim ref 0 ->
  (forall k, (k < size l)%N -> flat_std (nth (0%N, SVal 0) l k).2 (nth (0%N, SVal 0) l k).1 (sd k)) ->
  let ns := unzip1 l in
  let loop := wme_loop randn rand q (dim ref 0) (String.eqb dist "normal") repeated ref l g in
  if all (fits (wme_rows q repeated)) ns then
    exists2 r, loop = (gen_at dist (q * dim ref 0) ns g (size l), Ok r) &
      size r = size l /\ forall k, (k < size l)%N ->
        wme_qoi_ok q dist repeated ref ns sd g k (nth (dzeros 0 0, [::]) r k).1
          (nth (dzeros 0 0, [::]) r k).2
  else loop.2 = Err ValueError.
Proof.
move=> q0 sr; elim: l sd g => [|[n s] l IH] sd g hs /=; first by exists [::].
have -> : (if String.eqb dist "normal" then randn else rand) = gdraw dist by [].
case Eo: (gdraw dist (q * dim ref 0) g) => [sm g1].
set M := if repeated then _ else _.
have M1 : dr M = wme_rows q repeated.
  by rewrite /M /wme_rows; case: (repeated) => //=; rewrite /minn; case: (q) q0 => [|[]].
have M2 : dc M = dim ref 0 by rewrite /M; case: (repeated).
have Mg i j : (i < wme_rows q repeated)%N -> (j < dim ref 0)%N ->
    dget M i j = nth 0 sm (i * dim ref 0 + j).
  rewrite /M /wme_rows; case: (repeated) => hi hj; last by rewrite dget_mat.
  rewrite dget_build ?dget_mat //.
    by apply: leq_trans hi q0.
  by rewrite /minn; case: (q) q0 => [|[]].
have [a -> [sa ha]] := flat_array (hs 0%N isT).
rewrite noisyE ?M2 // M1 -bdim_fits; case Eb: (bdim _ n) => [r|] //=.
have {}IH := IH (fun k => sd k.+1) (randn n g1).2 (fun k hk => hs k.+1 hk).
move: IH; cbv zeta; case: (all _ _) => [[rs -> [zr hr]]|]; last first.
  by case: (wme_loop _ _ _ _ _ _ _ _ _) => g2 r2 /= ->.
eexists; first by rewrite {2}/gen_at /= Eo.
split=> [|[_|k hk]] /=; first by rewrite zr.
  have hr1 : r = if wme_rows q repeated == 1%N then n else wme_rows q repeated.
    move: Eb; rewrite /bdim; case: (eqVneq _ n) => [-> [<-]|_]; first by rewrite if_same.
    by case: ifP => [_ [<-] //|_]; case: ifP => // _ [<-].
  split; rewrite ?M1 ?M2 //=; rewrite /gen_at /= ?Eo //= ?size_map ?size_iota //.
  move=> i hi; rewrite (nth_map 0%N) ?size_iota // nth_iota // add0n /bidx.
  case: eqP => e1; case: eqP => e2 //; rewrite ha ?e2 //.
  - by rewrite hr1 e1 eqxx in hi.
  - move: Eb; rewrite /bdim; case: (eqVneq _ n) => [-> [e]|_]; first by rewrite e.
    by case: ifP => [/eqP //|_]; case: eqP.
by have := hr k hk; rewrite /wme_qoi_ok /gen_at /= Eo.
Qed.

(** One deviation (a number, or a flat array with one entry per observation) per QoI. *)
Theorem C108_generates ref (stds : seq (stdv R)) q obs dist repeated g sd :
  let ns := obs_list obs q in
  (0 < q)%N -> ndim ref != 0%N -> size (data ref) = dim ref 0 -> size stds = q -> size ns = q ->
  (forall k, (k < q)%N -> flat_std (nth (SVal 0) stds k) (nth 0%N ns k) (sd k)) ->
  if all (fits (wme_rows q repeated)) ns then
    exists Ms ys,
      [/\ wme_problem ref (WSeq stds) q obs dist repeated g
            = (gen_at dist (q * dim ref 0) ns g q, Ok (Ms, ys, stds)),
          size Ms = q, size ys = q &
          forall k, (k < q)%N -> wme_qoi_ok q dist repeated ref ns sd g k
                                   (nth (dzeros 0 0) Ms k) (nth [::] ys k)]
  else (wme_problem ref (WSeq stds) q obs dist repeated g).2 = Err ValueError.
Proof.
move=> ns q0 r0 sr zs zn hs; rewrite /random_linear_wme_problem /= zs eqxx; cbn [rbind guard].
have -> : wme_obs obs q = Ok ns.
  by move: zn; rewrite /ns; case: (obs) => //= l ->; rewrite eqxx.
cbn [rbind]; rewrite zs zn eqxx r0; cbn [rbind guard].
have e1 : unzip1 (zip ns stds) = ns by rewrite unzip1_zip ?zs ?zn.
have zz : size (zip ns stds) = q by rewrite size_zip zs zn minnn.
have hf k : (k < size (zip ns stds))%N ->
    flat_std (nth (0%N, SVal 0) (zip ns stds) k).2 (nth (0%N, SVal 0) (zip ns stds) k).1 (sd k).
  by rewrite zz => hk; rewrite nth_zip ?zs ?zn //; apply: hs.
have := @wme_loopE q dist repeated ref (zip ns stds) sd g q0 sr hf.
cbv zeta; rewrite e1 zz; case: (all _ _) => [[rs -> [zr hr]]|].
  exists [seq x.1 | x <- rs], [seq x.2 | x <- rs]; split; rewrite ?size_map //.
  by move=> k hk; rewrite !(nth_map (dzeros 0 0, [::])) ?zr //; apply: hr.
by case: (wme_loop _ _ _ _ _ _ _ _ _) => g2 r2 /= ->.
Qed.

(** A plain number as deviation only works for one QoI, and then only if it is not an integer. *)
Theorem C108_single_number ref isint x q obs dist repeated g :
  ndim ref != 0%N -> size (data ref) = dim ref 0 -> size (obs_list obs q) = q ->
  let run := wme_problem ref (WNum isint x) q obs dist repeated g in
  let n := nth 0%N (obs_list obs q) 0 in
  [/\ q != 1%N -> run.2 = Err AssertionError,
      q = 1%N -> isint ->
        run.2 = Err (if n == 1%N then ValueError else AssertionError) &
      q = 1%N -> ~~ isint -> exists M y,
        run = (gen_at dist (dim ref 0) [:: n] g 1, Ok ([:: M], [:: y], [:: SVal x])) /\
        wme_qoi_ok 1 dist repeated ref [:: n] (fun _ _ => x) g 0 M y].
Proof.
move=> r0 sr zn run n; rewrite {}/run /random_linear_wme_problem.
have e1 : wme_obs obs q = Ok (obs_list obs q).
  by move: zn; case: (obs) => //= l ->; rewrite eqxx.
split=> [q1|q1 hi|q1 hi].
- have -> : wme_std (WNum isint x) q
            = Ok [:: if isint then SArr (Nd [::] [:: x * q%:R]) else SVal (x * q%:R)].
    by case: (isint).
  by cbn [rbind]; rewrite e1; cbn [rbind]; rewrite zn /= eq_sym (negbTE q1).
- subst q; rewrite hi e1 /=; case: (obs_list obs 1) zn @n => [|n [|? ?]] //= _.
  rewrite r0; cbn [rbind guard].
  cbn [zip wme_loop]; case: ((if _ then randn else rand) _ g) => sm g1.
  cbn [std_array data size]; rewrite [1%N == n]eq_sym; case: (n == 1%N); cbn [rbind guard] => //.
  by rewrite /noisy /np_diag; case: dmulP.
- have {}hi : isint = false by apply: negbTE.
  subst q; rewrite hi e1 /=; move: zn; rewrite {}/n; case: (obs_list obs 1) => [|n [|? ?]] //= _.
  rewrite r0; cbn [rbind guard].
  have hp k : (k < 1)%N -> flat_std (nth (0%N, SVal 0) [:: (n, SVal (x * 1))] k).2
      (nth (0%N, SVal 0) [:: (n, SVal (x * 1))] k).1 (fun=> x).
    by case: k => // _ i; rewrite mulr1.
  have := @wme_loopE 1 dist repeated ref [:: (n, SVal (x * 1))] (fun _ _ => x) g isT sr hp.
  cbv zeta; have -> : all (fits (wme_rows 1 repeated)) (unzip1 [:: (n, SVal (x * 1))]).
    by rewrite /wme_rows if_same.
  case=> r E [z /(_ 0%N isT) h]; case: r z E h => [|[M y] [|? ?]] // _ E h.
  by exists M, y; rewrite mulr1 in E *; rewrite E /= mul1n.
Qed.
End Noisy.
