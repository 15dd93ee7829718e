(** * Properties of the hash tables: C31. *)
From Verif Require Import Base BitsModel HashModel SpecHash HashProof HashFacts.

(** C31: whatever operations are performed, for every hash function into the table, a table answers like a finite map;
    afterwards a key is found exactly if the map has it, no key is there twice and the number of entries is right. *)
Theorem C31_tables_are_maps : forall K V keqb hash, (forall x y : K, keqb x y = true <-> x = y) ->
  (forall s k, hash s k < num_bins s) -> forall (m : N -> hcell K V) l M, history l M ->
  exists t, hrun K V keqb hash (table_init K V m) (map fst l) = Some (map snd l, t) /\
    (forall k, (exists a v, In (a, k, v) M /\ hlookup K V keqb hash t k = Some a /\ hval K V (hmem K V t a) = v) \/
               (absent k M /\ hlookup K V keqb hash t k = Some 0)) /\
    NoDup (map key_of M) /\ hnum K V t = N.of_nat (length M).
Proof. exact tables_are_maps. Qed.
Print Assumptions C31_tables_are_maps.
Example C31_code_hash : (forall x y, wkeqb x y = true <-> x = y) /\ (forall s k, whash s k < num_bins s).
Proof. exact (conj wkeqb_spec whash_range). Qed.
Example C31_example : history hist hist_map /\ whash 8 (320, 640) = whash 8 (640, 320).
Proof. exact (conj hist_ok hist_collides). Qed.

(** Adding a key that is already there is not noticed, and which entry is found changes with the next resize. *)
Theorem C31_duplicate_refuted :
  exists t1 t2, hrun wkey N wkeqb whash (table_init _ _ cell0) [OAdd 96 (320, 640) 1; OAdd 128 (320, 640) 2] = Some ([96; 128], t1) /\
    hlookup _ _ wkeqb whash t1 (320, 640) = Some 128 /\
    hrun wkey N wkeqb whash t1 [OResize true] = Some ([0], t2) /\
    hlookup _ _ wkeqb whash t2 (320, 640) = Some 96.
Proof. exact duplicate_refuted. Qed.
Print Assumptions C31_duplicate_refuted.
