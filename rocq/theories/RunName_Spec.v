(** Vocabulary for C45: the name without its extension. *)
From Coq Require Import List Ascii.
From Verif Require Import RunName_Model.
Import ListNotations.
(** base is stem.ext with no dot in ext, or has no dot and is the stem *)
Definition stem_of (base stem : list ascii) : Prop :=
  (exists ext, base = stem ++ dot :: ext /\ ~ In dot ext) \/ (~ In dot base /\ stem = base).
