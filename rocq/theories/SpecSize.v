(** Specification of byte counts with a unit suffix. *)
From Verif Require Import Base SpecNum.

(** suffix and number of bytes *)
Definition size_units : list (buf * Z) :=
  [(text "B", 1);
   (text "KB", 1000); (text "MB", 1000000); (text "GB", 1000000000); (text "TB", 1000000000000);
   (text "KiB", 1024); (text "MiB", 1048576); (text "GiB", 1073741824); (text "TiB", 1099511627776)].
