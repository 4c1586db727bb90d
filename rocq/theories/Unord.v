(** Model of the unordered containers: specialization/array.hpp:129-152 and
    specialization/dict.hpp:166-196.  The hash table is a parameter: its hidden
    state (bucket count, chains) decides the iteration order, clear() keeps the
    bucket count, so the order may depend on the old contents of the target. *)
From Verif Require Import Base Parser Out Array.

Record hashtab (A H : Type) := mkhash {
  h_clear : H -> H;          (* t.clear() *)
  h_ins : H -> A -> H;       (* *(bitr++) = x : insert through insert_iterator *)
  h_list : H -> list A       (* begin()..end() *)
}.
Arguments mkhash {A H}.
Arguments h_clear {A H}.
Arguments h_ins {A H}.
Arguments h_list {A H}.

(** array.hpp:44-103 (serializerA) at such a container *)
Definition hash_codec {A H} (h : hashtab A H) (L R : Z) (item : codec A) (d0 : A) : codec H :=
  mkcodec (fun t => seq_ser L R (ser item) (h_list h t))
          (fun sn old s e => seq_des (mkcont (h_clear h old) (h_ins h) (fun t => t) (h_list h)) L R item d0 sn old s e).
(** array.hpp:130-152 unordered_set, unordered_multiset *)
Definition unordered_set_codec {A H} (h : hashtab A H) (item : codec A) (d0 : A) : codec H := hash_codec h LBR RBR item d0.
(** dict.hpp:166-196 unordered_map, unordered_multimap *)
Definition unordered_map_codec {K V H} (h : hashtab (K * V) H) (kc : codec K) (vc : codec V) (d0 : K * V) : codec H :=
  hash_codec h LCB RCB (field_codec kc vc) d0.
