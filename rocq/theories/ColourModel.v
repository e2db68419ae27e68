(** ColourModel.v - image_operations.h: conversion between RGB and HSV pixels, false colours, brightening.

    Doubles and long doubles are real numbers.  An RGB pixel is a list of three numbers from 0 to 255, an HSV pixel a list
    of three reals. *)
From Coq Require Import Reals.
From Verif Require Import Base ImageModel PixelModel OField SiftModel.
Open Scope nat_scope.

(** static_cast<std::uint8_t>(floating point): truncation; undefined when the truncated value is not representable *)
Definition to_u8 (r : R) : res Z :=
  if rleb r (-1) || rleb 256 r then UB else Ok (Z.max 0 (Int_part r)).

(** the quotient and std::acos; UB stands for a NaN, which is no real number *)
Definition acos_quotient (x d : R) : res R :=
  if Req_EM_T d 0 then UB
  else if rltb (x / d) (-1) || rltb 1 (x / d) then UB else Ok (acos (x / d)).

(** image_operations.h:855-889  rgb2hsv.  The sorted copy of the channels is only read at its two ends: these are the
    largest and the smallest channel.  H1 is computed where it is used *)
Definition rgb2hsv (input : list Z) : res (list R) :=
  let* red := vget input 0 in
  let* green := vget input 1 in
  let* blue := vget input 2 in
  let vmax := Z.max red (Z.max green blue) in
  let vmin := Z.min red (Z.min green blue) in
  let H1 := (let* a := acos_quotient (/ 2 * IZR ((red - green) + (red - blue)))
                         (sqrt (IZR (red - green) * IZR (red - green) + IZR ((red - blue) * (green - blue)))) in
             Ok (a * (180 / PI))%R) in
  let* H := if (vmax =? vmin)%Z then Ok 0%R else if (blue <=? green)%Z then H1 else let* h := H1 in Ok (360 - h)%R in
  let sat := if (vmax =? 0)%Z then 0%R else (1 - IZR vmin / IZR vmax)%R in
  Ok [H; sat; IZR vmax].

(** image_operations.h:891-898  rgb2hsv of a pixel of doubles *)
Definition rgb2hsv_double (input : list R) : res (list R) :=
  let* red := vget input 0 in
  let* green := vget input 1 in
  let* blue := vget input 2 in
  let* red := to_u8 red in
  let* green := to_u8 green in
  let* blue := to_u8 blue in
  rgb2hsv [red; green; blue].

(** image_operations.h:901-948  hsv2rgb; an output pixel that is not assigned stays black *)
Definition hsv2rgb (input : list R) : res (list Z) :=
  let* H := vget input 0 in
  let* sat := vget input 1 in
  let* vmax := vget input 2 in
  let* hi := to_u8 (IZR (Int_part (H / 60))) in
  let f := (H / 60 - IZR hi)%R in
  let vmin := (vmax * (1 - sat))%R in
  let q := (vmax * (1 - f * sat))%R in
  let t := (vmax * (1 - (1 - f) * sat))%R in
  let out a b c := let* a := to_u8 a in let* b := to_u8 b in let* c := to_u8 c in Ok [a; b; c] in
  if (hi =? 0)%Z then out vmax t vmin
  else if (hi =? 1)%Z then out q vmax vmin
  else if (hi =? 2)%Z then out vmin vmax t
  else if (hi =? 3)%Z then out vmin q vmax
  else if (hi =? 4)%Z then out t vmin vmax
  else if (hi =? 5)%Z then out vmax vmin q
  else Ok [0; 0; 0]%Z.

(** image_operations.h:952-959  Grayscale2RGB of one pixel *)
Definition grayscale2rgb (g : Z) : res (list Z) := hsv2rgb [IZR g / 256 * 360; 1; 255]%R.

(** pixelwise_transform (2044-2056) with a function that may have no defined result *)
Definition pixelwiseM {A B} (f : A -> res B) (im : image A) : res (image B) :=
  let* data := mapM f (pix im) in image_data data (dims im).

(** image_operations.h:2074-2105  rgb2hsv and hsv2rgb of an image; 962-968 Grayscale2RGB of an image (recursive_transform
    over the pixel data) *)
Definition rgb2hsv_image (im : image (list Z)) : res (image (list R)) := pixelwiseM rgb2hsv im.
Definition hsv2rgb_image (im : image (list R)) : res (image (list Z)) := pixelwiseM hsv2rgb im.
Definition grayscale2rgb_image (im : image Z) : res (image (list Z)) := pixelwiseM grayscale2rgb im.

(** image_operations.h:6163-6172  increase_intensity: the planes are taken apart, the V plane is multiplied by the number,
    and they are put together again (get_plane, multiplies_scalar and construct3 of PixelModel.v) *)
Definition increase_intensity (d : list R) (times : R) (im : image (list Z)) : res (image (list Z)) :=
  let* hsv := rgb2hsv_image im in
  let* h := get_plane seq0 0%R hsv 0 in
  let* s := get_plane seq0 0%R hsv 1 in
  let* v := get_plane seq0 0%R hsv 2 in
  let* v := multiplies_scalar Rmult 0%R times v in
  let* hsv := construct3 seq0 d h s v in
  hsv2rgb_image hsv.
