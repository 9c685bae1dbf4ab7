(** * Keypoints and the memory they own
    (aslam_cv/aslam_cameras/include/aslam_cameras/Keypoint.hpp and implementation/Keypoint.hpp)

    Measurements, covariances, landmarks, rays and descriptors are opaque values, here
    numbers. A keypoint owns its landmark and its ray (back projection) through raw
    pointers and shares its descriptor. Addresses are never reused; descriptors are
    freed by their reference count and this is not modelled. Program variables that
    hold keypoints are numbered; slot 0 is the local [copy] of the assignment operator
    and slot [S i] the variable [i]. Using a dead variable, a freed object or a null
    pointer is undefined. *)
From Coq Require Import ZArith Bool List.
From Verif Require Import Base.
Local Open Scope Z_scope.

(** Keypoint.hpp:217-241 *)
Record kp := Kp { meas : Z; cov : Z; lid : Z; lm : option nat; dsc : option nat; bp : option nat; oct : Z; trace : Z }.

(** A heap: what is at every address, and the next unused address. *)
Record heap := Heap { at_ : nat -> option Z; next : nat }.
Definition upd {A} (f : nat -> A) (i : nat) (x : A) : nat -> A := fun j => if Nat.eqb j i then x else f j.
Definition alloc (h : heap) (x : Z) : nat * heap := (next h, Heap (upd (at_ h) (next h) (Some x)) (S (next h))).
Definition read (h : heap) (p : nat) : outcome Z := match at_ h p with Some x => Ok x | None => UB end.
Definition write (h : heap) (p : nat) (x : Z) : outcome heap :=
  match at_ h p with Some _ => Ok (Heap (upd (at_ h) p (Some x)) (next h)) | None => UB end.
Definition free (h : heap) (p : nat) : outcome heap :=
  match at_ h p with Some _ => Ok (Heap (upd (at_ h) p None) (next h)) | None => UB end.

Record world := World { slots : nat -> option kp; hl : heap; hb : heap; hd : heap }.
Definition empty_heap : heap := Heap (fun _ => None) 0.
Definition init : world := World (fun _ => None) empty_heap empty_heap empty_heap.

Definition get (w : world) (i : nat) : outcome kp := match slots w i with Some k => Ok k | None => UB end.
Definition put (w : world) (i : nat) (k : option kp) : world := World (upd (slots w) i k) (hl w) (hb w) (hd w).

(** LandmarkId(): sm_common/Id.hpp:60, -1 as a 64-bit unsigned number. *)
Definition ID_UNSET : Z := 18446744073709551615.
(** The zero measurement and the identity are numbered 0 and 1. *)
(** implementation/Keypoint.hpp:3-13 *)
Definition fresh : kp := Kp 0 1 ID_UNSET None None None 0 0.
(** A variable is only initialised when it is not alive. *)
Definition construct (w : world) (i : nat) (k : kp) : outcome world :=
  match slots w i with Some _ => UB | None => Ok (put w i (Some k)) end.

(** [new T( *p )] unless p is null. *)
Definition clone (h : heap) (p : option nat) : outcome (option nat * heap) :=
  match p with
  | None => Ok (None, h)
  | Some q => do x <- read h q; let '(r, h') := alloc h x in Ok (Some r, h')
  end.
(** implementation/Keypoint.hpp:16-38: the copy constructor *)
Definition copy (w : world) (dst src : nat) : outcome world :=
  do k <- get w src;
  do a <- clone (hl w) (lm k);
  do b <- clone (hb w) (bp k);
  construct (World (slots w) (snd a) (snd b) (hd w)) dst
            (Kp (meas k) (cov k) (lid k) (fst a) (dsc k) (fst b) (oct k) (trace k)).

(** [if (p) delete p] *)
Definition release (h : heap) (p : option nat) : outcome heap := match p with None => Ok h | Some q => free h q end.
(** implementation/Keypoint.hpp:57-68,79-81: freeAll and the destructor *)
Definition destroy (w : world) (i : nat) : outcome world :=
  do k <- get w i;
  do a <- release (hl w) (lm k);
  do b <- release (hb w) (bp k);
  Ok (put (World (slots w) a b (hd w)) i None).

(** implementation/Keypoint.hpp:276-286 *)
Definition swap (w : world) (i j : nat) : outcome world :=
  do k <- get w i;
  do m <- get w j;
  if Nat.eqb i j then Ok w else
  Ok (put (put w i (Some (Kp (meas m) (cov m) (lid m) (lm m) (dsc m) (bp m) (oct k) (trace k))))
          j (Some (Kp (meas k) (cov k) (lid k) (lm k) (dsc k) (bp k) (oct m) (trace m)))).

(** implementation/Keypoint.hpp:71-76: a local copy, a swap, and the end of the local *)
Definition assign (w : world) (i j : nat) : outcome world :=
  do w1 <- copy w 0 j;
  do w2 <- swap w1 i 0;
  destroy w2 0.

(** An argument passed by reference: a temporary or the object at an address. *)
Inductive arg := Val (x : Z) | Ref (p : nat).
Definition eval (h : heap) (a : arg) : outcome Z := match a with Val x => Ok x | Ref p => read h p end.

(** implementation/Keypoint.hpp:197-207 *)
Definition set_landmark (w : world) (i : nat) (a : arg) : outcome world :=
  do k <- get w i;
  match lm k with
  | None => do x <- eval (hl w) a; let '(p, h) := alloc (hl w) x in
            Ok (put (World (slots w) h (hb w) (hd w)) i (Some (Kp (meas k) (cov k) (lid k) (Some p) (dsc k) (bp k) (oct k) (trace k))))
  | Some p => do x <- eval (hl w) a; do h <- write (hl w) p x; Ok (World (slots w) h (hb w) (hd w))
  end.
(** implementation/Keypoint.hpp:228-235: the landmark and its id *)
Definition clear_landmark (w : world) (i : nat) : outcome world :=
  do k <- get w i;
  do h <- release (hl w) (lm k);
  Ok (put (World (slots w) h (hb w) (hd w)) i (Some (Kp (meas k) (cov k) ID_UNSET None (dsc k) (bp k) (oct k) (trace k)))).

(** implementation/Keypoint.hpp:237-255: the old object is deleted first, then the
    argument is copied. *)
Definition set_back (w : world) (i : nat) (a : arg) : outcome world :=
  do k <- get w i;
  do h <- release (hb w) (bp k);
  do x <- eval h a;
  let '(p, h') := alloc h x in
  Ok (put (World (slots w) (hl w) h' (hd w)) i (Some (Kp (meas k) (cov k) (lid k) (lm k) (dsc k) (Some p) (oct k) (trace k)))).
(** implementation/Keypoint.hpp:267-274 *)
Definition clear_back (w : world) (i : nat) : outcome world :=
  do k <- get w i;
  do h <- release (hb w) (bp k);
  Ok (put (World (slots w) (hl w) h (hd w)) i (Some (Kp (meas k) (cov k) (lid k) (lm k) (dsc k) None (oct k) (trace k)))).

(** The plain setters: implementation/Keypoint.hpp:94-97,105-109,123-128,216-220,288-291 *)
Inductive field := Measurement | Covariance | LandmarkId | Octave | TraceId.
Definition set_field (w : world) (i : nat) (f : field) (x : Z) : outcome world :=
  do k <- get w i;
  Ok (put w i (Some (match f with
    | Measurement => Kp x (cov k) (lid k) (lm k) (dsc k) (bp k) (oct k) (trace k)
    | Covariance => Kp (meas k) x (lid k) (lm k) (dsc k) (bp k) (oct k) (trace k)
    | LandmarkId => Kp (meas k) (cov k) x (lm k) (dsc k) (bp k) (oct k) (trace k)
    | Octave => Kp (meas k) (cov k) (lid k) (lm k) (dsc k) (bp k) x (trace k)
    | TraceId => Kp (meas k) (cov k) (lid k) (lm k) (dsc k) (bp k) (oct k) x
    end))).

Definition with_dsc (k : kp) (d : option nat) : kp := Kp (meas k) (cov k) (lid k) (lm k) d (bp k) (oct k) (trace k).
(** implementation/Keypoint.hpp:172-175: a clone of the given descriptor *)
Definition set_descriptor (w : world) (i : nat) (x : Z) : outcome world :=
  do k <- get w i;
  let '(p, h) := alloc (hd w) x in Ok (put (World (slots w) (hl w) (hb w) h) i (Some (with_dsc k (Some p)))).
(** implementation/Keypoint.hpp:165-169,182-187: [i.setDescriptorPtr(j.descriptorPtr())] *)
Definition share_descriptor (w : world) (i j : nat) : outcome world :=
  do k <- get w i; do m <- get w j; Ok (put w i (Some (with_dsc k (dsc m)))).
(** Changing the object behind [i.descriptorPtr()]. *)
Definition edit_descriptor (w : world) (i : nat) (x : Z) : outcome world :=
  do k <- get w i;
  match dsc k with None => UB | Some p => do h <- write (hd w) p x; Ok (World (slots w) (hl w) (hb w) h) end.

(** Keypoint.hpp:166-196: what is written and read back. Reading overwrites the
    pointers with new objects or null; the old octave stays for version 0. *)
Record saved := Saved { smeas : Z; scov : Z; slid : Z; slm : option Z; sdsc : option Z; sbp : option Z; soct : Z }.
Definition fetch (h : heap) (p : option nat) : outcome (option Z) :=
  match p with None => Ok None | Some q => do x <- read h q; Ok (Some x) end.
Definition save (w : world) (i : nat) : outcome saved :=
  do k <- get w i;
  do l <- fetch (hl w) (lm k); do d <- fetch (hd w) (dsc k); do b <- fetch (hb w) (bp k);
  Ok (Saved (meas k) (cov k) (lid k) l d b (oct k)).
Definition make (h : heap) (x : option Z) : option nat * heap :=
  match x with None => (None, h) | Some y => let '(p, h') := alloc h y in (Some p, h') end.
Definition load (w : world) (i : nat) (version : Z) (s : saved) : outcome world :=
  if version >? 1 then Throw else
  do k <- get w i;
  let '(l, h1) := make (hl w) (slm s) in
  let '(d, h2) := make (hd w) (sdsc s) in
  let '(b, h3) := make (hb w) (sbp s) in
  Ok (put (World (slots w) h1 h3 h2) i
       (Some (Kp (smeas s) (scov s) (slid s) l d b (if version >? 0 then soct s else oct k) (trace k)))).

(** One operation on the variables of a program. [Ref]s are the objects that
    [landmark()] and [*backProjection()] of another variable denote. *)
Inductive source := Value (x : Z) | Of (j : nat).
Inductive op :=
  | New (i : nat) | Copy (i j : nat) | Assign (i j : nat) | Swap (i j : nat) | Destroy (i : nat)
  | SetField (i : nat) (f : field) (x : Z)
  | SetLandmark (i : nat) (a : source) | ClearLandmark (i : nat)
  | SetBack (i : nat) (a : source) | ClearBack (i : nat)
  | SetDescriptor (i : nat) (x : Z) | ShareDescriptor (i j : nat) | EditDescriptor (i : nat) (x : Z)
  | Load (i : nat) (version : Z) (s : saved).

Definition deref (w : world) (field : kp -> option nat) (a : source) : outcome arg :=
  match a with
  | Value x => Ok (Val x)
  | Of j => do k <- get w (S j); match field k with None => UB | Some p => Ok (Ref p) end
  end.
Definition step (w : world) (o : op) : outcome world :=
  match o with
  | New i => construct w (S i) fresh
  | Copy i j => copy w (S i) (S j)
  | Assign i j => assign w (S i) (S j)
  | Swap i j => swap w (S i) (S j)
  | Destroy i => destroy w (S i)
  | SetField i f x => set_field w (S i) f x
  | SetLandmark i a => do r <- deref w lm a; set_landmark w (S i) r
  | ClearLandmark i => clear_landmark w (S i)
  | SetBack i a => do r <- deref w bp a; set_back w (S i) r
  | ClearBack i => clear_back w (S i)
  | SetDescriptor i x => set_descriptor w (S i) x
  | ShareDescriptor i j => share_descriptor w (S i) (S j)
  | EditDescriptor i x => edit_descriptor w (S i) x
  | Load i v s => load w (S i) v s
  end.
Fixpoint run (w : world) (l : list op) : outcome world :=
  match l with nil => Ok w | cons o l' => do w' <- step w o; run w' l' end.

(** What the getters of a variable return; the descriptor is an object with an identity. *)
Record shown := Shown { vmeas : Z; vcov : Z; vlid : Z; vlm : option Z; vdsc : option nat; vbp : option Z; voct : Z; vtrace : Z }.
Definition target (h : heap) (p : option nat) : option Z := match p with None => None | Some q => at_ h q end.
Definition show (w : world) (i : nat) : option shown :=
  match slots w (S i) with
  | None => None
  | Some k => Some (Shown (meas k) (cov k) (lid k) (target (hl w) (lm k)) (dsc k) (target (hb w) (bp k)) (oct k) (trace k))
  end.
