(** * What a mask means, and what stacked parameters are *)
From Coquelicot Require Import Coquelicot.
From Coq Require Import Reals List ZArith.
From Verif Require Import Base KinModel DistModel DistSpec PinModel CamSpec RpeModel RpeSpec RsModel CgModel.
Import ListNotations.
Local Open Scope R_scope.

(** The mask, scaled, is at least as large as the image of the camera. *)
Definition covers (m : mask) (c : camera) : Prop :=
  match m with
  | NoMask => True
  | ImageMask img scale =>
      0 < scale /\
      let '(r, k) := match img with Some p => (p_rows p, p_cols p) | None => (2147483647, 2147483647)%Z end in
      IZR (c_height c) * scale <= IZR r /\ IZR (c_width c) * scale <= IZR k /\ (r <= 2147483647)%Z /\ (k <= 2147483647)%Z
  end.
(** The pixel of the mask under the keypoint [k] is not black. *)
Definition lets_through (m : mask) (k : v2) : Prop :=
  match m with
  | NoMask | ImageMask None _ => True
  | ImageMask (Some p) scale => exists r c, IZR r <= u1 k * scale < IZR r + 1 /\ IZR c <= u0 k * scale < IZR c + 1 /\ (0 < p_at p r c)%Z
  end.
(** 0 <= k < resolution *)
Definition inside_image (c : camera) (k : v2) : Prop := 0 <= u0 k < IZR (c_width c) /\ 0 <= u1 k < IZR (c_height c).

(** A camera whose parameter blocks have their sizes. *)
Definition sized (g : geometry) : Prop :=
  length (c_intr (g_cam g)) = projection_dim (c_model (g_cam g)) /\ length (c_dist (g_cam g)) = distortion_dim (c_model (g_cam g)).
Definition other (f : flags) : flags := Flags (negb (f_proj f)) (negb (f_dist f)) (negb (f_shut f)).
Definition everything : flags := Flags true true true.
(** Same camera model, resolution and kind of shutter. *)
Definition same_kind (g h : geometry) : Prop :=
  c_model (g_cam g) = c_model (g_cam h) /\ c_width (g_cam g) = c_width (g_cam h) /\ c_height (g_cam g) = c_height (g_cam h) /\
  c_pactive (g_cam g) = c_pactive (g_cam h) /\ c_dactive (g_cam g) = c_dactive (g_cam h) /\
  length (shutter_get (g_shutter g)) = length (shutter_get (g_shutter h)).
