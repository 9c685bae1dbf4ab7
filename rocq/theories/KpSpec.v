(** * Keypoints as plain values

    What a program may expect from keypoints if it thinks of them as values: every
    operation changes only the variable it names. The descriptor is an object that
    several keypoints can share, so it has an identity. *)
From Coq Require Import ZArith Bool List.
From Verif Require Import Base KpModel.
Local Open Scope Z_scope.

Record store := Store { vars : nat -> option shown; descs : nat -> option Z; ndesc : nat }.
Definition nothing : store := Store (fun _ => None) (fun _ => None) 0.
Definition set {A} (f : nat -> A) (i : nat) (x : A) : nat -> A := fun j => if Nat.eqb j i then x else f j.
Definition setv (s : store) (i : nat) (v : option shown) : store := Store (set (vars s) i v) (descs s) (ndesc s).

(** What a variable holds after being assigned, or swapped with, [v]: everything of [v]
    but the octave and the trace id, which stay. *)
Definition take (v old : shown) : shown :=
  Shown (vmeas v) (vcov v) (vlid v) (vlm v) (vdsc v) (vbp v) (voct old) (vtrace old).
Definition default : shown := Shown 0 1 18446744073709551615 None None None 0 0.

Definition source_value (s : store) (part : shown -> option Z) (a : source) : option Z :=
  match a with Value x => Some x | Of j => match vars s j with Some v => part v | None => None end end.
Definition with_field (v : shown) (f : field) (x : Z) : shown :=
  match f with
  | Measurement => Shown x (vcov v) (vlid v) (vlm v) (vdsc v) (vbp v) (voct v) (vtrace v)
  | Covariance => Shown (vmeas v) x (vlid v) (vlm v) (vdsc v) (vbp v) (voct v) (vtrace v)
  | LandmarkId => Shown (vmeas v) (vcov v) x (vlm v) (vdsc v) (vbp v) (voct v) (vtrace v)
  | Octave => Shown (vmeas v) (vcov v) (vlid v) (vlm v) (vdsc v) (vbp v) x (vtrace v)
  | TraceId => Shown (vmeas v) (vcov v) (vlid v) (vlm v) (vdsc v) (vbp v) (voct v) x
  end.
Definition with_lm (v : shown) (x : option Z) (id : Z) : shown := Shown (vmeas v) (vcov v) id x (vdsc v) (vbp v) (voct v) (vtrace v).
Definition with_bp (v : shown) (x : option Z) : shown := Shown (vmeas v) (vcov v) (vlid v) (vlm v) (vdsc v) x (voct v) (vtrace v).
Definition with_desc (v : shown) (d : option nat) : shown := Shown (vmeas v) (vcov v) (vlid v) (vlm v) d (vbp v) (voct v) (vtrace v).
Definition new_desc (s : store) (x : Z) : store := Store (vars s) (set (descs s) (ndesc s) (Some x)) (S (ndesc s)).

(** [None]: the program uses a variable that is not alive, or an absent part. *)
Definition expect (s : store) (o : op) : option store :=
  match o with
  | New i => match vars s i with None => Some (setv s i (Some default)) | Some _ => None end
  | Copy i j => match vars s i, vars s j with None, Some v => Some (setv s i (Some v)) | _, _ => None end
  | Assign i j => match vars s i, vars s j with Some a, Some b => Some (setv s i (Some (take b a))) | _, _ => None end
  | Swap i j => match vars s i, vars s j with
                | Some a, Some b => Some (setv (setv s i (Some (take b a))) j (Some (take a b)))
                | _, _ => None end
  | Destroy i => match vars s i with Some _ => Some (setv s i None) | None => None end
  | SetField i f x => match vars s i with Some v => Some (setv s i (Some (with_field v f x))) | None => None end
  | SetLandmark i a => match vars s i, source_value s vlm a with
                       | Some v, Some x => Some (setv s i (Some (with_lm v (Some x) (vlid v)))) | _, _ => None end
  | ClearLandmark i => match vars s i with Some v => Some (setv s i (Some (with_lm v None 18446744073709551615))) | None => None end
  | SetBack i a => match vars s i, source_value s vbp a with
                   | Some v, Some x => Some (setv s i (Some (with_bp v (Some x)))) | _, _ => None end
  | ClearBack i => match vars s i with Some v => Some (setv s i (Some (with_bp v None))) | None => None end
  | SetDescriptor i x => match vars s i with
                         | Some v => Some (setv (new_desc s x) i (Some (with_desc v (Some (ndesc s))))) | None => None end
  | ShareDescriptor i j => match vars s i, vars s j with
                           | Some v, Some u => Some (setv s i (Some (with_desc v (vdsc u)))) | _, _ => None end
  | EditDescriptor i x => match vars s i with
                          | Some v => match vdsc v with Some d => Some (Store (vars s) (set (descs s) d (Some x)) (ndesc s)) | None => None end
                          | None => None end
  | Load i version a => match vars s i with
      | Some v =>
        let s1 := match sdsc a with None => s | Some x => new_desc s x end in
        Some (setv s1 i (Some (Shown (smeas a) (scov a) (slid a) (slm a)
               (match sdsc a with None => None | Some _ => Some (ndesc s) end) (sbp a)
               (if version =? 1 then soct a else voct v) (vtrace v))))
      | None => None end
  end.

(** The two operations that are not safe everywhere: setting the ray of a keypoint from
    its own ray, and reading into a keypoint that already has a landmark or a ray. *)
Definition proper (s : store) (o : op) : Prop :=
  match o with
  | SetBack i (Of j) => i <> j
  | Load i version _ => 0 <= version <= 1 /\ forall v, vars s i = Some v -> vlm v = None /\ vbp v = None
  | _ => True
  end.
Inductive runs : store -> list op -> store -> Prop :=
  | runs_nil s : runs s nil s
  | runs_cons s o s1 l s2 : proper s o -> expect s o = Some s1 -> runs s1 l s2 -> runs s (o :: l) s2.

(** Every object alive belongs to exactly one variable. *)
Definition owned (h : heap) (part : kp -> option nat) (w : world) : Prop :=
  forall p, at_ h p <> None -> exists! i, exists k, slots w (S i) = Some k /\ part k = Some p.
