(** Model of coralign/maskgen/maskgen.py. scipy's rotate and RectBivariateSpline are arguments. *)
From Coq Require Import ZArith Bool List String Reals.
From Flocq Require Import Core.
From Coquelicot Require Import Complex.
From Verif.Base Require Import Py Arr Vec Sums CSum Fft.
From Verif.Model Require Import Math PadCrop Fits ThinFilm.
Import ListNotations.
Open Scope Z_scope.

(** numpy.arange(a, b, 1). *)
Definition arange1 (a b : R) : vec R := Vec (Z.max 0 (Zceil (b - a))) (fun i => (a + IZR i)%R).
(** scipy.ndimage.rotate(a, degrees, reshape=False). *)
Definition rotate_fun := arr R -> R -> arr R.
(** RectBivariateSpline(ys, xs, a)(y, x) at one point; constructing it needs at least 4 samples per axis. *)
Definition bispline_fun := vec R -> vec R -> arr R -> R -> R -> R.
Definition spline_error : exn := Custom "fitpack error".

(** maskgen.py:81-85: the averaging window, a normalised disc of the width of one output pixel. *)
Definition window (x0 : vec R) (dxOut : R) : arr R :=
  let raw := Arr (vlen x0) (vlen x0) (fun i j =>
    if Rle_dec (sqrt (vat x0 j ^ 2 + vat x0 i ^ 2)) (dxOut / 2) then 1%R else 0%R) in      (* 81-84 *)
  amap (fun v => v / rsum2 (at2 raw) (nr raw) (nc raw))%R raw.                             (* 85 *)
(** maskgen.py:89-92: convolution by FFT. *)
Definition convolve (nMaskIn : Z) (win mask : arr R) : res (arr R) :=
  let scale := amap (fun z => z * RtoC (IZR nMaskIn))%C in
  do f_window <- ifft2 (ifftshift (amap RtoC win));                                        (* 89 *)
  do f_maskIn <- ifft2 (ifftshift (amap RtoC mask));                                       (* 90 *)
  do a <- fft2 (amap2 Cmult (scale f_window) (scale f_maskIn));                            (* 91 *)
  Ok (amap fst (fftshift a)).                                                              (* 91-92 *)
(** maskgen.py:18-107 on real masks. *)
Definition rotate_shift_downsample (rotate : rotate_fun) (spline : bispline_fun) (maskIn : arr R)
    (rotDeg mag xOffset yOffset padFac : R) (flipx : bool) : res (arr R) :=
  check Rltb 0 mag else TypeError;                                                         (* 51 *)
  check negb (Rltb 1 mag) else TypeError;                                                  (* 52 *)
  check Rltb 0 padFac else TypeError;                                                      (* 56 *)
  check negb (Rltb padFac 1) else TypeError;                                               (* 57 *)
  let newSideLength := ceil_odd (padFac * IZR (Z.max (nr maskIn) (nc maskIn))) in          (* 62 *)
  do mask <- pad_crop maskIn [newSideLength; newSideLength] 0%R;                           (* 63 *)
  let mask := if flipx then Arr (nr mask) (nc mask) (fun i j => at2 mask i (nc mask - 1 - j)) else mask in   (* 66-67 *)
  let dxOut := (1 / mag)%R in                                                              (* 71 *)
  let nMaskIn := nr mask in                                                                (* 72 *)
  let nMaskOut := ceil_odd (IZR nMaskIn * mag + 2 + 2 * Rmax (Rabs xOffset) (Rabs yOffset)) in   (* 73-75 *)
  let x0 := arange1 (- (IZR nMaskIn - 1) / 2) (IZR nMaskIn / 2) in                         (* 80: dxIn = 1 *)
  do A <- convolve nMaskIn (window x0 dxOut) mask;
  let A := if Req_EM_T rotDeg 0 then A else rotate A (- rotDeg)%R in                       (* 94-95 *)
  let grid := arange1 (- (IZR nMaskOut - 1) / 2) (IZR nMaskOut / 2) in
  let x1 i := ((vat grid i - xOffset) * dxOut)%R in                                        (* 97 *)
  let y1 i := ((vat grid i - yOffset) * dxOut)%R in                                        (* 98 *)
  check 3 <? vlen x0 else spline_error;                                                    (* 101 *)
  let Atemp := Arr (vlen grid) (vlen grid) (fun i j => spline x0 x0 A (y1 i) (x1 j)) in    (* 102 *)
  set_slice (afull (nMaskOut + 1) (nMaskOut + 1) 0%R)
    (Slice 1 (nMaskOut + 1)) (Slice 1 (nMaskOut + 1)) Atemp.                               (* 104-105 *)

(** maskgen.py:110-272. The two YAML files and the FITS file are given by their contents; the lookups and type
    checks of lines 175-195 are the types here. *)
Record hlc := {
  h_ppl : R; h_rotDeg : R; h_aoi : R; h_rOccLamD : R; h_lam0 : R; h_hTi : R; h_hNi : R; h_dx : R; h_FN : R;
  h_polState : Z; h_hRefCoef : R; h_padFac : R; h_minOversize : R; h_pmgi : arr R }.
(** maskgen.py:242-244: pixels without PMGI get the substrate's coefficient, the others theirs in order. *)
Fixpoint scatter {A} (pmgi : list R) (sub : A) (coef : list A) : list A :=
  match pmgi with
  | [] => []
  | h :: t => if Rltb 0 h then match coef with c :: cs => c :: scatter t sub cs | [] => [] end
              else sub :: scatter t sub coef
  end.
Fixpoint all_some {A} (l : list (option A)) : option (list A) :=
  match l with
  | [] => Some []
  | Some a :: t => match all_some t with Some r => Some (a :: r) | None => None end
  | None :: _ => None
  end.
(** maskgen.py:222-246: the normalised transmission at file resolution; None when numpy gives NaN. *)
Definition occ_start (fd : film_data) (p : hlc) (lam : R) : res (option (arr C)) :=
  let nFPM0 := ceil_odd (IZR (Z.max (nr (h_pmgi p)) (nc (h_pmgi p)))) in                   (* 224 *)
  do pmgi <- pad_crop (h_pmgi p) [nFPM0; nFPM0] 0%R;                                       (* 225 *)
  let occ := filter (Rltb 0) (elements pmgi) in                                            (* 226-230, 237 *)
  let hRef := (h_hRefCoef p * h_lam0 p)%R in                                               (* 234 *)
  do t <- calc_complex_occulter fd lam (h_aoi p) (map (fun _ => h_hTi p) occ) (map (fun _ => h_hNi p) occ) occ
            hRef (h_polState p) false "FS";                                                (* 238-239 *)
  do s <- calc_complex_occulter fd lam (h_aoi p) [0%R] [0%R] [0%R] hRef (h_polState p) false "FS";   (* 240-241 *)
  match fst s with
  | [] => Err IndexError                                                                   (* 243 *)
  | sub :: _ =>
      match all_some (scatter (elements pmgi) sub (fst t)) with
      | None => Ok None
      | Some flat =>
          let at_ i j := nth (Z.to_nat (i * nFPM0 + j)) flat (RtoC 0) in                   (* 245 *)
          if Ceq_dec (at_ 0 0) (RtoC 0) then Ok None
          else Ok (Some (Arr nFPM0 nFPM0 (fun i j => at_ i j / at_ 0 0)%C))                (* 246 *)
      end
  end.
(** maskgen.py:110-272. *)
Definition gen_hlc_occulter (rotate : rotate_fun) (spline : bispline_fun) (fd : film_data) (p : hlc) (lam : R)
    (scaleWithWavelength : bool) (shapeOut : list Z) (xOffset yOffset : R) : res (option (arr C)) :=
  check Rltb 0 lam else TypeError;                                                         (* 163 *)
  check (List.length shapeOut =? 2)%nat else TypeError;                                    (* 165 *)
  check forallb (Z.ltb 0) shapeOut else TypeError;                                         (* 167-168 *)
  check Rltb 0 (h_ppl p) else TypeError;                                                   (* 198 *)
  check Rltb 0 (h_lam0 p) else TypeError;                                                  (* 202 *)
  check Rltb 0 (h_hTi p) else TypeError;                                                   (* 203 *)
  check Rltb 0 (h_hNi p) else TypeError;                                                   (* 204 *)
  check Rltb 0 (h_dx p) else TypeError;                                                    (* 205 *)
  check Rltb 0 (h_FN p) else TypeError;                                                    (* 206 *)
  check (h_polState p =? 0) || (h_polState p =? 1) || (h_polState p =? 2) else TypeError;  (* 207-209 *)
  check Rltb 0 (h_hRefCoef p) else TypeError;                                              (* 210 *)
  check negb (Rltb (h_aoi p) 0) else TypeError;                                            (* 211 *)
  check negb (Rleb 90 (h_aoi p)) else TypeError;                                           (* 212 *)
  check Rltb 0 (h_padFac p) else TypeError;                                                (* 214 *)
  check negb (Rltb (h_padFac p) 1) else TypeError;                                         (* 215 *)
  check Rltb 0 (h_minOversize p) else TypeError;                                           (* 217 *)
  check negb (Rltb (h_minOversize p) 2) else TypeError;                                    (* 219 *)
  do start <- occ_start fd p lam;
  let pplStart := (h_FN p * h_lam0 p / h_dx p)%R in                                        (* 249 *)
  let pplEnd := if scaleWithWavelength then (h_lam0 p / lam * h_ppl p)%R else h_ppl p in   (* 250-253 *)
  let nPadEnd := Zceil (2 * h_rOccLamD p * pplEnd * h_minOversize p) in                    (* 254 *)
  let nPadMiddle := Zfloor (pplStart / pplEnd * IZR nPadEnd) in                            (* 255 *)
  check negb (nPadEnd =? 0) else ZeroDivisionError;                                        (* 256 *)
  let ratio := (IZR nPadMiddle / IZR nPadEnd)%R in
  let mag := (ratio * pplEnd / pplStart)%R in                                              (* 256-257 *)
  match start with
  | None => Ok None
  | Some occStart =>
      let c := at2 occStart 0 0 in
      do re <- rotate_shift_downsample rotate spline (amap (fun z => fst (z - c)%C) occStart) (h_rotDeg p) mag
                 (xOffset * ratio) (yOffset * ratio) (h_padFac p) false;                   (* 258-260 *)
      do im <- rotate_shift_downsample rotate spline (amap (fun z => snd (z - c)%C) occStart) (h_rotDeg p) mag
                 (xOffset * ratio) (yOffset * ratio) (h_padFac p) false;                   (* 261-263 *)
      let occMiddle := amap2 (fun a b => (a, b) : C) re im in                              (* 264 *)
      do occMiddle <- pad_crop occMiddle [nPadMiddle; nPadMiddle] (RtoC 0);
      let occMiddle := amap (fun z => z + c)%C occMiddle in                                (* 265 *)
      do f <- ifft2 (ifftshift occMiddle);
      do occFT <- pad_crop (fftshift f) [nPadEnd; nPadEnd] (RtoC 0);                       (* 268 *)
      do e <- fft2 (ifftshift occFT);
      let occEnd := fftshift e in                                                          (* 269 *)
      do o <- pad_crop (amap (fun z => z - c)%C occEnd) shapeOut (RtoC 0);
      Ok (Some (amap (fun z => z + c)%C o))                                                (* 270 *)
  end.
