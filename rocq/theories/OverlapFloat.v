(** Model of the overlap of Gaussians and mixtures with a box in IEEE double arithmetic
    (include/gaussian.hpp:122-150, include/gm.hpp:268-284).

    The samples are random; whether each is within the box is an input, one Boolean for
    each sample.  [fsum] adds up in the order of the parallel reduction. *)
From Coq Require Import List Floats.
Import ListNotations.

Section Overlap.
Variable fsum : list float -> float.

(** Gaussian_::overlap, gaussian.hpp:122-134 (BBox) and 136-148 (AABBox), N = 1000. *)
Definition fgauss_overlap (within : list bool) : float :=
  (fsum (map (fun _ => 1) (filter (fun b => b) within)) / 1000)%float.
(** GM::overlap, gm.hpp:268-275 (BBox) and 277-284 (AABBox): weights and samples. *)
Definition fgm_overlap (c : list (float * list bool)) : float :=
  fsum (map (fun cmp => (fst cmp * fgauss_overlap (snd cmp))%float) c).
End Overlap.
