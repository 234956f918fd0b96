(** Model of maskgen.py's rotate_shift_downsample_amplitude_mask on complex arrays, which its argument check admits. *)
From Coq Require Import ZArith Bool List String Reals.
From Flocq Require Import Core.
From Coquelicot Require Import Complex.
From Verif.Base Require Import Py Arr Vec Sums CSum Fft.
From Verif.Model Require Import Math PadCrop Fits ThinFilm MaskGen.
Import ListNotations.
Open Scope Z_scope.

(** maskgen.py:89-92 *)
Definition convolve_complex (nMaskIn : Z) (win : arr R) (mask : arr C) : res (arr R) :=
  let scale := amap (fun z => z * RtoC (IZR nMaskIn))%C in
  do f_window <- ifft2 (ifftshift (amap RtoC win));                                        (* 89 *)
  do f_maskIn <- ifft2 (ifftshift mask);                                                   (* 90 *)
  do a <- fft2 (amap2 Cmult (scale f_window) (scale f_maskIn));                            (* 91 *)
  Ok (amap fst (fftshift a)).                                                              (* 91-92 *)
(** maskgen.py:18-107 *)
Definition rotate_shift_downsample_complex (rotate : rotate_fun) (spline : bispline_fun) (maskIn : arr C)
    (rotDeg mag xOffset yOffset padFac : R) (flipx : bool) : res (arr R) :=
  check Rltb 0 mag else TypeError;                                                         (* 51 *)
  check negb (Rltb 1 mag) else TypeError;                                                  (* 52 *)
  check Rltb 0 padFac else TypeError;                                                      (* 56 *)
  check negb (Rltb padFac 1) else TypeError;                                               (* 57 *)
  let newSideLength := ceil_odd (padFac * IZR (Z.max (nr maskIn) (nc maskIn))) in          (* 62 *)
  do mask <- pad_crop maskIn [newSideLength; newSideLength] (RtoC 0);                      (* 63 *)
  let mask := if flipx then Arr (nr mask) (nc mask) (fun i j => at2 mask i (nc mask - 1 - j)) else mask in   (* 66-67 *)
  let dxOut := (1 / mag)%R in                                                              (* 71 *)
  let nMaskIn := nr mask in                                                                (* 72 *)
  let nMaskOut := ceil_odd (IZR nMaskIn * mag + 2 + 2 * Rmax (Rabs xOffset) (Rabs yOffset)) in   (* 73-75 *)
  let x0 := arange1 (- (IZR nMaskIn - 1) / 2) (IZR nMaskIn / 2) in                         (* 80: dxIn = 1 *)
  do A <- convolve_complex nMaskIn (window x0 dxOut) mask;
  let A := if Req_EM_T rotDeg 0 then A else rotate A (- rotDeg)%R in                       (* 94-95 *)
  let grid := arange1 (- (IZR nMaskOut - 1) / 2) (IZR nMaskOut / 2) in
  let x1 i := ((vat grid i - xOffset) * dxOut)%R in                                        (* 97 *)
  let y1 i := ((vat grid i - yOffset) * dxOut)%R in                                        (* 98 *)
  check 3 <? vlen x0 else spline_error;                                                    (* 101 *)
  let Atemp := Arr (vlen grid) (vlen grid) (fun i j => spline x0 x0 A (y1 i) (x1 j)) in    (* 102 *)
  set_slice (afull (nMaskOut + 1) (nMaskOut + 1) 0%R)
    (Slice 1 (nMaskOut + 1)) (Slice 1 (nMaskOut + 1)) Atemp.                               (* 104-105 *)
