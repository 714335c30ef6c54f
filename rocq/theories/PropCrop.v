(** Property C69: tight PNG saving crops exactly the blank border. *)
From Coq Require Import List Bool Arith Lia.
From Verif Require Import Base ModelCrop SpecCrop ProofCrop.
Import ListNotations.

(** C69, partial: for RGBA images in which some pixel differs from the corner pixel in the red
    channel and some pixel in the alpha channel.  Missing: all other images (refuted below). *)
Theorem C69_crops_partial im h w : rectangular im h w 4 -> 0 < h -> 0 < w -> varies im 0 -> varies im 3 ->
  exists out, tight_png im = Some out /\ tight im out.
Proof. intros HR Hh Hw H0 H3. apply (proj1 (crop_spec im h w 4 HR Hh Hw) eq_refl H0 H3). Qed.
Print Assumptions C69_crops_partial.

(** C69 is false of every other image: nothing is saved *)
Theorem C69_refuted im h w : rectangular im h w 4 -> 0 < h -> 0 < w -> ~ (varies im 0 /\ varies im 3) -> tight_png im = None.
Proof. intros HR Hh Hw HN. apply (proj2 (crop_spec im h w 4 HR Hh Hw)); [lia|tauto]. Qed.
Print Assumptions C69_refuted.

(** in particular of opaque images, and of images without an alpha channel *)
Theorem C69_opaque_refuted im h w a : rectangular im h w 4 -> 0 < h -> 0 < w ->
  (forall i j px, pixel im i j = Some px -> nth_error px 3 = Some a) -> tight_png im = None.
Proof.
  intros HR Hh Hw Ha. apply (C69_refuted im h w HR Hh Hw). intros [_ [i [j [v [Ev Hne]]]]].
  unfold channel in Ev, Hne. destruct (pixel im i j) as [px|] eqn:Ep; [|discriminate]. rewrite (Ha i j px Ep) in Ev. injection Ev as <-.
  destruct (corner im h w 4 HR Hh Hw) as [bl [Eb _]]. rewrite Eb in Hne. apply Hne, (Ha 0 0 bl Eb).
Qed.
Print Assumptions C69_opaque_refuted.
Theorem C69_rgb_refuted im h w n : rectangular im h w n -> 0 < h -> 0 < w -> n < 4 -> tight_png im = None.
Proof. intros HR Hh Hw Hn. apply (proj2 (crop_spec im h w n HR Hh Hw)); lia. Qed.
Print Assumptions C69_rgb_refuted.

Example C69_case : let o := [0; 0; 0; 0] in let p := [9; 1; 2; 255] in
  tight_png [[o; o; o; o]; [o; o; p; o]; [o; p; o; o]; [o; o; o; o]] = Some [[o; p]; [p; o]].
Proof. reflexivity. Qed.
Example C69_opaque_case : let o := [255; 255; 255; 255] in let p := [9; 1; 2; 255] in tight_png [[o; o]; [o; p]] = None.
Proof. reflexivity. Qed.
