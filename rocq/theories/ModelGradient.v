(** ColormapGradient of utils/MayaviMakePlot.py, 73-100.

    A colour given as a string is the array matplotlib makes of it, so a colour is a list of real
    channels; arrays of different lengths are an error (NumPy would also accept a single channel
    and repeat it, which is left out).  [np.linspace(.., dtype=np.uint8)] computes
    start + i * (stop - start) / 255, sets the last row to stop, rounds down, and converts. *)
From Coq Require Import Reals ZArith List Bool Arith.
From Verif Require Import Base.
Import ListNotations.

Definition linspace_chan (start stop : R) (i : nat) : R :=
  if i =? 255 then stop else (INR i * ((stop - start) / 255) + start)%R.
Definition to_uint8 (z : Z) : Z := (z mod 256)%Z.
Definition ColormapGradient (c1 c2 : list R) : option (list (list Z)) :=
  if length c1 =? length c2 then
    let c1 := map (fun x => x * 255)%R c1 in
    let c2 := map (fun x => x * 255)%R c2 in
    Some (map (fun i => map (fun p => to_uint8 (Int_part (linspace_chan (fst p) (snd p) i))) (combine c1 c2)) (seq 0 256))
  else None.
