(** Model of coralign/util/fresnelprop.py over IEEE doubles, operation by operation. x**2 of a Python float ([fpow2], None standing
    for OverflowError), numpy.hypot, numpy.exp of a complex number, numpy.fft.fft2 and ifft2 are arguments. Scalars are Python
    floats and fields are complex. The model over exact numbers is Fresnel.v. *)
From Coq Require Import ZArith Bool List String.
From Flocq Require Import Core BinarySingleNaN.
From Verif.Base Require Import Py F64 Arr Fft.
From Verif.Model Require Import Math PadCrop ShapesG MftF.
Import ListNotations.
Open Scope string_scope.
Open Scope Z_scope.

Section Lib.
Variables (fpow2 : f64 -> option f64) (fhypot : f64 -> f64 -> f64) (fcexp : c128 -> c128) (ffft fifft : arr c128 -> arr c128).

(** int(np.ceil(lam*np.abs(z)*(pixpermeter**2))) (fresnelprop.py:102 and 162): int of nan is a ValueError, of an infinity an
    OverflowError. *)
Definition n_samples_min_f (lam z ppm : f64) : res Z :=
  do p2 <- match fpow2 ppm with None => Err (Custom "OverflowError") | Some p => Ok p end;
  int_of_float (fceil (fmul (fmul lam (Babs z)) p2)).

(** -1j*np.pi*lam*z, from the left *)
Definition minus_i_pi (lam z : f64) : c128 :=
  cmul (cmul (cmul (fopp fzero, fopp (fofZ 1)) (cofF fpi)) (cofF lam)) (cofF z).
(** fresnelprop.py:108-115 and 168-175. Numpy squares an array by multiplying it with itself. *)
Definition fp_array_f (lam z : f64) (nx : Z) (ppm : f64) : arr c128 :=
  Arr nx nx (fun r c =>
    let rrf := fhypot (fofZ (c - nx / 2)) (fofZ (r - nx / 2)) in             (* 110 *)
    let t := fmul rrf (fdiv ppm (fofZ nx)) in
    fcexp (cmul (minus_i_pi lam z) (cofF (fmul t t)))).                      (* 115 *)

(** fresnelprop.py:125-175 *)
Definition get_fp_f (lam z : f64) (nx : Z) (ppm : f64) : res (arr c128) :=
  check negb (fle lam fzero) else TypeError;                                 (* 152 *)
  check 0 <? nx else TypeError;                                              (* 154 *)
  check negb (fle ppm fzero) else TypeError;                                 (* 155 *)
  do ns <- n_samples_min_f lam z ppm;                                        (* 162 *)
  check negb (nx <? ns) else ValueError;                                     (* 163-166 *)
  Ok (fp_array_f lam z nx ppm).

(** fresnelprop.py:11-32 and 35-56 *)
Definition do_fft_f (e : arr c128) : res (arr c128) :=
  check nonempty e else ValueError; Ok (fftshift (ffft (ifftshift e))).      (* 31 *)
Definition do_ifft_f (e : arr c128) : res (arr c128) :=
  check nonempty e else ValueError; Ok (fftshift (fifft (ifftshift e))).     (* 55 *)
(** [a *= b] with numpy broadcasting of [b] to the shape of [a]. *)
Definition imul_f (a b : arr c128) : res (arr c128) :=
  check bc_ok (nr a) (nr b) && bc_ok (nc a) (nc b) else ValueError;
  Ok (Arr (nr a) (nc a) (fun i j => cmul (at2 a i j) (at2 b (bc_idx (nr b) i) (bc_idx (nc b) j)))).
(** fresnelprop.py:118-122 and 217-221 *)
Definition propagate_f (e : arr c128) (nx : Z) (fp : arr c128) : res (arr c128) :=
  do efresnel <- pad_crop e [nx; nx] (fzero, fzero);
  do fefresnel <- do_fft_f efresnel;
  do fefresnel <- imul_f fefresnel fp;
  do efresnel2 <- do_ifft_f fefresnel;
  pad_crop efresnel2 [nr e; nc e] (fzero, fzero).
(** fresnelprop.py:59-122 *)
Definition fresnelprop_f (e : arr c128) (lam z : f64) (nx : Z) (ppm : f64) : res (arr c128) :=
  check negb (fle lam fzero) else TypeError;                                 (* 88 *)
  check 0 <? nx else TypeError;                                              (* 90 *)
  check negb (fle ppm fzero) else TypeError;                                 (* 91 *)
  if feq z fzero then Ok e else                                              (* 99-100 *)
  do ns <- n_samples_min_f lam z ppm;                                        (* 102 *)
  check negb (Z.min (nr e) (nc e) <? ns) else ValueError;                    (* 103-106 *)
  propagate_f e nx (fp_array_f lam z nx ppm).                                (* 108-122 *)
(** fresnelprop.py:178-221 *)
Definition fresnelprop_fp_f (e : arr c128) (z : f64) (nx : Z) (fp : arr c128) : res (arr c128) :=
  check 0 <? nx else TypeError;                                              (* 209 *)
  if feq z fzero then Ok e else propagate_f e nx fp.                         (* 213-221 *)
End Lib.
