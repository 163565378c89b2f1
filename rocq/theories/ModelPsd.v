(** * allantools.py: conversions between power spectral densities and
    deviations (psd2allan, adev2psd_piecewise_approx, psd_piecewise_to_adev).

    scipy's cubic interpolation and adaptive quadrature are parameters of the model (oracles); what a theorem needs to know
    about them is a hypothesis of that theorem.  Powers of positive numbers are
    [Rpower]; np.log is [ln]. *)
From Coq Require Import String Ascii Reals List ZArith Bool Arith.
From Verif Require Import Base Num NpList NumR.
Import ListNotations.
Local Open Scope res_scope.
Local Notation len := List.length.

(** str.lower() on ASCII text. *)
Definition lower_ascii (c : ascii) : ascii :=
  let n := nat_of_ascii c in
  if (Nat.leb 65 n && Nat.leb n 90)%bool then ascii_of_nat (n + 32) else c.
Fixpoint lower (s : string) : string :=
  match s with
  | EmptyString => EmptyString
  | String c t => String (lower_ascii c) (lower t)
  end.

(** ** The frequency grids of psd2allan, over any number structure. *)
Section Grid.
Context {A : Type} {NA : Num A}.
Local Open Scope num_scope.

(** Smallest integer >= x, as used by np.arange for its length; a NaN or
    infinite length raises ValueError, a negative one gives an empty array. *)
Definition nceil (x : A) : res nat :=
  match ntrunc x with
  | None => Err ValueError
  | Some z => Ok (Z.to_nat (if nltb (ofZ z) x then z + 1 else z)%Z)
  end.
(** np.arange(start, stop, step): ceil((stop-start)/step) entries
    start + i*step; step 0 raises ZeroDivisionError. *)
Definition arange (start stop step : A) : res (list A) :=
  if neqb step (ofZ 0) then Err ZeroDivisionError else
  n <- nceil ((stop - start) / step) ;;
  Ok (map (fun i => start + ofN i * step) (seq 0 n)).

(** allantools.py:1731-1734: coarse grid f0 and fine grid f. *)
Definition psd_grids (size : nat) (df : A) : res (list A * list A) :=
  let df0 := ofZ 4 * df in
  f0 <- arange (ofZ 0) (ofN size * df0) df0 ;;
  f <- arange df ((ofN size - ofZ 1) * df0 + df) df ;;
  Ok (f0, f).

(** scipy's interp1d evaluated at [f] refuses points outside the range of the
    grid [f0] (bounds_error default): ValueError. *)
Definition in_bounds (f0 f : list A) : bool :=
  let a := nth 0 f0 (ofZ 0) in let b := last f0 (ofZ 0) in
  forallb (fun v => (nleb (nmin2 a b) v && nleb v (nmax2 a b))%bool) f.
End Grid.

Local Open Scope R_scope.

(** The frequency argument: an array, a scalar, or something else. *)
Inductive farg := FVec (l : list R) | FStep (d : R) | FOther.

(** allantools.py:1740-1744: averaging factors.  np.unique sorts and removes
    duplicates; the arguments are rounded to integers first. *)
Definition psd_m (n base : R) : list R :=
  if Rltb 1 base then
    map IZR (unique (map rintR
      (map (fun k => Rpower base (INR k)) (seq 0 (Z.to_nat (Int_part (ln n / ln base)))) ++ [n])))
  else map (fun k => 1 + INR k) (seq 0 (Z.to_nat (- Int_part (- (n - 1))))).

(** allantools.py:1751-1754: exponent from kind. *)
Definition psd_exponent (kind : string) : res nat :=
  match kind with
  | EmptyString => Err IndexError
  | String c _ =>
      if Ascii.eqb (lower_ascii c) "a" then Ok 1%nat
      else if Ascii.eqb (lower_ascii c) "m" then Ok 2%nat
      else Err UnboundLocalError
  end.

(** allantools.py:1756-1760: one integrand value. *)
Definition transfer (e : nat) (f tau : R) : R :=
  Rabs (sin (PI * f * tau) ^ (e + 1) / (PI * f * tau) ^ e) ^ 2.

(** scipy.integrate.simpson(y, x=x) for an odd number of points: sum over
    consecutive triples of the exact integral of the interpolating parabola.
    An even number of points (scipy applies a correction to the last interval)
    does not occur here, see [C70_value]; the last point is then ignored. *)
Fixpoint simpson (y x : list R) : R :=
  match y, x with
  | y0 :: (y1 :: ((y2 :: _) as yr)), x0 :: (x1 :: ((x2 :: _) as xr)) =>
      let h0 := x1 - x0 in
      let h1 := x2 - x1 in
      let hsum := h0 + h1 in
      hsum / 6 * (y0 * (2 - 1 / (h0 / h1)) + y1 * (hsum * hsum / (h0 * h1)) + y2 * (2 - h0 / h1))
      + simpson yr xr
  | _, _ => 0
  end.

Section Psd2allan.
(** interp f0 S f: cubic interpolation. *)
Variable interp : list R -> list R -> list R -> list R.

(** allantools.py:1668-1764 psd2allan; [None] is an S_y that is not an
    ndarray.  interp1d(kind='cubic') needs at least four points. *)
Definition psd2allan (S_y : option (list R)) (f : farg) (kind : string) (base : R)
    : res (list R * list R) :=
  match S_y with
  | None => Err ValueError
  | Some S_y =>
    df <- match f with
          | FVec l => a <- pyget l 1 ;; b <- pyget l 0 ;; Ok (a - b)
          | FStep d => Ok d
          | FOther => Err ValueError
          end ;;
    '(f0, f) <- psd_grids (len S_y) df ;;
    if (Nat.ltb (len S_y) 4 || negb (Nat.eqb (len f0) (len S_y)))%bool then Err ValueError else
    if negb (in_bounds f0 f) then Err ValueError else
    let S := interp f0 S_y f in
    let f := map (fun v => v / 4) f in
    fmax <- npmax f ;;
    let tau0 := 1 / fmax in
    let n := 1 / df / tau0 / 2 in
    let m := psd_m n base in
    let taus_used := map (fun k => k * tau0) m in
    e <- psd_exponent kind ;;
    let integrand tau := 0 :: map2 (fun s v => s * transfer e v tau) S f in
    let ad := map (fun tau => sqrt (2 * simpson (integrand tau) (0 :: f))) taus_used in
    Ok (taus_used, ad)
  end.
End Psd2allan.

(** ** adev2psd_piecewise_approx *)

(** allantools.py:1855: log-log slope of the variance between two points (dev, tau). *)
Definition slope (p q : R * R) : R :=
  2 * (ln (fst q) - ln (fst p)) / (ln (snd q) - ln (snd p)).

(** allantools.py:1854-1859: retained slopes with the point that ends each. *)
Fixpoint retain (tol : R) (last : option R) (p : R * R) (l : list (R * R)) : list (R * (R * R)) :=
  match l with
  | [] => []
  | q :: t =>
      let mu := slope p q in
      if match last with None => true | Some m => Rltb tol (Rabs (mu - m)) end
      then (mu, q) :: retain tol (Some mu) q t
      else retain tol last q t
  end.

Fixpoint increasing (l : list R) : bool :=
  match l with
  | a :: t => match t with b :: _ => Rltb 0 (b - a) && increasing t | [] => true end
  | [] => true
  end.

Section Adev2psd.
(** The value returned by quad for the Allan (hdev=false) or Hadamard
    (hdev=true) integral with exponent mu. *)
Variable J : bool -> R -> R.

(** allantools.py:1767-1918. *)
Definition adev2psd (adev taus : list R) (vartype : string) (mu_tol : R)
    : res (list R * list R * list R * list R) :=
  if negb (Nat.eqb (len adev) (len taus)) then Err ValueError else
  if Nat.ltb (len adev) 2 then Err ValueError else
  if (existsb (fun v => Rleb v 0) adev || existsb (fun v => Rleb v 0) taus)%bool then Err ValueError else
  if negb (increasing taus) then Err ValueError else
  let vt := lower vartype in
  if negb (String.eqb vt "adev" || String.eqb vt "hdev")%bool then Err ValueError else
  let hdev := String.eqb vt "hdev" in
  match map2 pair adev taus with
  | [] => Err ValueError   (* not reached: at least two points *)
  | p0 :: pts =>
    let kept := retain mu_tol None p0 pts in
    let mus := map fst kept in
    let filtered_adev := fst p0 :: map (fun k => fst (snd k)) kept in
    let filtered_tau := snd p0 :: map (fun k => snd (snd k)) kept in
    if negb (forallb (fun mu => Rleb (-2) mu && Rleb mu (if hdev then 4 else 2))%bool mus)
    then Err ValueError else
    let Bi := map (fun i => nth i filtered_adev 0 ^ 2 * Rpower (nth i filtered_tau 0) (- nth (i - 1) mus 0))
                  (seq 1 (len mus)) in
    let integral_values := map (J hdev) mus in
    let hi := map (fun i => nth i Bi 0 / (2 * nth i integral_values 0 * Rpower PI (nth i mus 0)))
                  (seq 0 (len Bi)) in
    let hi := rev hi in
    let alphas := map (fun i => - nth (len mus - 1 - i) mus 0 - 1) (seq 0 (len mus)) in
    let f_nodes :=
      if Nat.eqb (len filtered_adev) 2 then rev (map (fun t => 1 / t) filtered_tau)
      else rev (map (fun i => 1 / (10 * PI * nth i filtered_tau 0) *
             Rpower (nth i integral_values 0 / nth (i + 1) integral_values 0)
                    (1 / (nth (i + 1) mus 0 - nth i mus 0))) (seq 0 (len mus - 1))) in
    let Sy_nodes :=
      if Nat.eqb (len filtered_adev) 2 then
        map (fun i => nth 0 hi 0 * Rpower (nth i f_nodes 0) (nth 0 alphas 0)) (seq 0 (len f_nodes))
      else map (fun i => nth i hi 0 * Rpower (nth i f_nodes 0) (nth i alphas 0)) (seq 0 (len f_nodes)) in
    Ok (f_nodes, Sy_nodes, hi, alphas)
  end.
End Adev2psd.

(** ** psd_piecewise_to_adev *)
Section ToAdev.
(** The value returned by quad for the integral of sin^4(z)/z^(2-a) from lo
    to hi ([None] is infinity). *)
Variable Q : R -> R -> option R -> R.

(** pi*tau*edge, for an edge that may be infinite. *)
Definition edge_scale (c : R) (e : option R) : option R := option_map (fun v => c * v) e.

(** allantools.py:1920-1977; the arrays h and alpha are indexed together, so
    a shorter alpha or f_nodes raises IndexError. *)
Definition psd_to_adev (h alpha f_nodes taus : list R) : res (list R) :=
  let edges := Some 0 :: map Some f_nodes ++ [None] in
  mapM (fun tau =>
    terms <- mapM (fun i =>
       hi <- pyget h (Z.of_nat i) ;;
       ai <- pyget alpha (Z.of_nat i) ;;
       lo <- pyget edges (Z.of_nat i) ;;
       up <- pyget edges (Z.of_nat i + 1) ;;
       let factor := hi / Rpower (PI * tau) (ai + 1) in
       match edge_scale (PI * tau) lo with
       | Some lo => Ok (factor * Q ai lo (edge_scale (PI * tau) up))
       | None => Ok 0   (* lower edge infinite: the integral from inf to ... is not reached for i < size *)
       end) (seq 0 (len h)) ;;
    Ok (sqrt (2 * asum terms))) taus.
End ToAdev.
