(** * Instances for the hash table theorems. *)
From Verif Require Import Base BitsModel BitsProof WordsLemmas HashModel SpecHash HashProof.

(** The tables of the code: the key is the pair of words of a node, the hash function is [CalDoHash2]. *)
Definition wkey : Type := N * N.
Definition wkeqb (x y : wkey) : bool := (fst x =? fst y) && (snd x =? snd y).
Definition whash (s : N) (k : wkey) : N := w_hash (fst k) (snd k) (num_bins s).

Lemma wkeqb_spec x y : wkeqb x y = true <-> x = y.
Proof.
  unfold wkeqb. rewrite Bool.andb_true_iff, !N.eqb_eq. destruct x, y; simpl. split; [intros [-> ->]; auto|intros [= -> ->]; auto].
Qed.
Lemma whash_range s k : whash s k < num_bins s.
Proof. apply hash_range. Qed.

(** A history with a search that finds, a collision in one bin, a change of key, a resize and a deletion. *)
Definition hist : list (hop wkey N * N) :=
  [(OFind (320, 640) 7 96, 96); (OFind (640, 320) 8 128, 128); (OFind (320, 640) 9 160, 96);
   (OAdd 192 (32, 64) 5, 192); (OResize true, 0); (ORekey 128 (1000, 32), 128); (ODel 96, 96); (ODel 96, 0)].
Definition hist_map : entries wkey N := [(192, (32, 64), 5); (128, (1000, 32), 8)].

Ltac notin := simpl; intros H; repeat (destruct H as [H|H]; [discriminate H|]); exact H.
Lemma hist_ok : history hist hist_map.
Proof.
  unfold hist, hist_map.
  apply (h_snoc _ _ [_; _; _; _; _; _; _] [(192, (32, 64), 5); (128, (1000, 32), 8)]); [|apply d_miss; split; [discriminate|notin]].
  apply (h_snoc _ _ [_; _; _; _; _; _] [(192, (32, 64), 5); (128, (1000, 32), 8); (96, (320, 640), 7)]);
    [|apply (d_del _ _ _ 96 (320, 640) 7 [_; _] []); reflexivity].
  apply (h_snoc _ _ [_; _; _; _; _] [(192, (32, 64), 5); (128, (640, 320), 8); (96, (320, 640), 7)]);
    [|apply (d_rekey _ _ _ 128 (640, 320) (1000, 32) 8 [_] [_]); [reflexivity|notin]].
  apply (h_snoc _ _ [_; _; _; _] [(192, (32, 64), 5); (128, (640, 320), 8); (96, (320, 640), 7)]); [|apply d_size].
  apply (h_snoc _ _ [_; _; _] [(128, (640, 320), 8); (96, (320, 640), 7)]); [|apply d_add; [split; [discriminate|notin]|notin]].
  apply (h_snoc _ _ [_; _] [(128, (640, 320), 8); (96, (320, 640), 7)]);
    [|apply d_found with (v' := 7); [split; [discriminate|notin]|simpl; auto]].
  apply (h_snoc _ _ [_] [(96, (320, 640), 7)]); [|apply d_new; [split; [discriminate|notin]|notin]].
  apply (h_snoc _ _ [] []); [apply h_nil|apply d_new; [split; [discriminate|notin]|notin]].
Qed.
Lemma hist_collides : whash 8 (320, 640) = whash 8 (640, 320).
Proof. vm_compute. reflexivity. Qed.

(** Adding a key that is there already (calHashTableOne.c:148-168 does not look): the newest entry is found,
    until the next resize turns the chain around. *)
Definition cell0 : N -> hcell wkey N := fun _ => HC _ _ (0, 0) 0 0.
Lemma duplicate_refuted :
  exists t1 t2, hrun wkey N wkeqb whash (table_init _ _ cell0) [OAdd 96 (320, 640) 1; OAdd 128 (320, 640) 2] = Some ([96; 128], t1) /\
    hlookup _ _ wkeqb whash t1 (320, 640) = Some 128 /\
    hrun wkey N wkeqb whash t1 [OResize true] = Some ([0], t2) /\
    hlookup _ _ wkeqb whash t2 (320, 640) = Some 96.
Proof.
  destruct (hrun wkey N wkeqb whash (table_init _ _ cell0) [OAdd 96 (320, 640) 1; OAdd 128 (320, 640) 2]) as [[r1 t1]|] eqn:E1; [|vm_compute in E1; discriminate].
  assert (Er : r1 = [96; 128]) by (vm_compute in E1; injection E1 as <- _; reflexivity). subst r1.
  exists t1. destruct (hrun wkey N wkeqb whash t1 [OResize true]) as [[r2 t2]|] eqn:E2.
  - exists t2. vm_compute in E1. injection E1 as <-. vm_compute in E2. injection E2 as <- <-. vm_compute. auto.
  - exfalso. vm_compute in E1. injection E1 as <-. vm_compute in E2. discriminate.
Qed.
