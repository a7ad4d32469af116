(** The catalogue of data sets, data.py:44-155, 158-236, 275-332, 352-820 and 823-843, and its use in main.py:150-185.

    Simplifications.  Loading a data set is external: [get_datasets] gives the branch that is taken.  Of the items, the model has the number of labels where
    data.py itself determines it, and the shape: images are resized to the height and width of [get_data_shape] and have the channels of their
    documentation; tables are reshaped (data.py:494-497, 617-622, ...). *)
From Coq Require Import List Arith Bool String Ascii.
Import ListNotations.
From Verif Require Import Base Generate.
Local Open Scope string_scope.

(** * Strings *)
(** sub in s *)
Definition contains (sub s : string) : bool := match String.index 0 sub s with Some _ => true | None => false end.
(** s.replace(pat, "") for a pattern that is not empty: occurrences from the left that do not overlap; [skip] characters belong to the last one. *)
Fixpoint erase (pat s : string) (skip : nat) : string :=
  match s with
  | EmptyString => EmptyString
  | String c s' =>
      match skip with
      | S k => erase pat s' k
      | O => if String.prefix pat s then erase pat s' (String.length pat - 1) else String c (erase pat s' 0)
      end
  end.
(** d[key] *)
Fixpoint lookup {A} (d : list (string * A)) (key : string) : option A :=
  match d with [] => None | (k, a) :: d' => if String.eqb key k then Some a else lookup d' key end.
Definition member (l : list string) (key : string) : bool := existsb (String.eqb key) l.

(** * Tables *)
(** DEBD, data.py:275-298 *)
Definition DEBD : list string :=
  ["accidents"; "ad"; "baudio"; "bbc"; "bnetflix"; "book"; "c20ng"; "cr52"; "cwebkb"; "dna"; "jester"; "kdd"; "kosarek"; "moviereview"; "msnbc"; "msweb";
   "nltcs"; "plants"; "pumsb_star"; "tmovie"; "tretail"; "voting"].
(** DEBD_shapes[name]["train"][1], data.py:300-323 *)
Definition DEBD_shapes : list (string * nat) :=
  [("accidents", 111); ("ad", 1556); ("baudio", 100); ("bbc", 1058); ("bnetflix", 100); ("book", 500); ("c20ng", 910); ("cr52", 889); ("cwebkb", 839);
   ("dna", 180); ("jester", 100); ("kdd", 64); ("kosarek", 190); ("moviereview", 1001); ("msnbc", 17); ("msweb", 294); ("nltcs", 16); ("plants", 69);
   ("pumsb_star", 163); ("tmovie", 500); ("tretail", 135); ("voting", 1359)].
(** data.py:87-113 *)
Definition shapes : list (string * ishape) :=
  [("mnist-16", mkShape 1 16 16); ("mnist-32", mkShape 1 32 32); ("mnist-bin", mkShape 1 28 28); ("mnist", mkShape 1 28 28); ("fmnist", mkShape 1 28 28);
   ("fmnist-16", mkShape 1 16 16); ("fmnist-32", mkShape 1 32 32); ("cifar", mkShape 3 32 32); ("svhn", mkShape 3 32 32); ("svhn-extra", mkShape 3 32 32);
   ("celeba", mkShape 3 128 128); ("celeba-small", mkShape 3 64 64); ("celeba-tiny", mkShape 3 32 32); ("lsun", mkShape 3 32 32); ("fake", mkShape 3 32 32);
   ("flowers", mkShape 3 32 32); ("tiny-imagenet", mkShape 3 32 32); ("lfw", mkShape 3 32 32); ("20newsgroup", mkShape 1 50 1); ("kddcup99", mkShape 1 118 1);
   ("covtype", mkShape 1 54 1); ("breast_cancer", mkShape 1 30 1); ("wine", mkShape 1 13 1); ("digits", mkShape 1 8 8)].
(** data.py:131-155 *)
Definition class_numbers : list (string * nat) :=
  [("mnist-16", 10); ("mnist-32", 10); ("mnist-bin", 10); ("mnist", 10); ("fmnist", 10); ("fmnist-16", 10); ("fmnist-32", 10); ("cifar", 10); ("svhn", 10);
   ("svhn-extra", 10); ("celeba", 0); ("celeba-small", 0); ("celeba-tiny", 0); ("lsun", 0); ("fake", 10); ("flowers", 102); ("tiny-imagenet", 200); ("lfw", 0);
   ("20newsgroup", 20); ("kddcup99", 23); ("covtype", 7); ("breast_cancer", 2); ("wine", 3)].

(** * Functions *)
Definition item {A} (o : option A) : res A := match o with Some a => Ok a | None => Err KeyErr end.
(** data.py:71-113 *)
Definition get_data_shape (name : string) : res ishape :=
  if contains "synth" name then Ok (mkShape 2 1 1)
  else if member DEBD name then n <- item (lookup DEBD_shapes name) ;; Ok (mkShape 1 n 1)
  else item (lookup shapes name).
(** data.py:116-155 *)
Definition get_data_num_classes (name : string) : res nat :=
  if contains "synth" name then Ok 2 else if member DEBD name then Ok 0 else item (lookup class_numbers name).
(** data.py:158-236: the number of labels of the generator.  make_blobs has one label per center, and three centers by default ("varied"). *)
Definition generate_labels (name : string) : res nat :=
  let tag := erase "synth-" name 0 in
  if tag =? "2-clusters" then Ok 2
  else if tag =? "3-clusters" then Ok 3
  else if tag =? "9-clusters" then Ok 9
  else if tag =? "2-moons" then Ok 2
  else if tag =? "circles" then Ok 2
  else if tag =? "aniso" then Ok 3
  else if tag =? "varied" then Ok 3
  else Err ValueErr.
(** data.py:823-836 *)
Definition is_1d_data (name : string) : bool :=
  member DEBD name || member ["20newsgroup"; "covtype"; "kddcup99"; "breast_cancer"; "wine"] name || contains "synth" name.
(** data.py:839-844 *)
Definition is_classification_data (name : string) : bool := negb (member DEBD name || contains "celeba" name).

(** The branches of get_datasets *)
Inductive source : Type := Synth (labels : nat) | Images (channels : nat) | Table.
(** data.py:352-820: the sources, or what is raised.  A bare Exception (:807) is a [GenericExc]. *)
Definition get_datasets (name : string) : res source :=
  _ <- get_data_shape name ;;
  if contains "synth" name then k <- generate_labels name ;; Ok (Synth k)
  else if (name =? "mnist") || (name =? "mnist-32") || (name =? "mnist-16") then Ok (Images 1)
  else if name =? "mnist-bin" then Ok (Images 1)
  else if name =? "digits" then Ok (Images 1)
  else if (name =? "fmnist") || (name =? "fmnist-32") then Ok (Images 1)
  else if contains "celeba" name then Ok (Images 3)
  else if name =? "cifar" then Ok (Images 3)
  else if contains "svhn" name then Ok (Images 3)
  else if name =? "lsun" then Ok (Images 3)
  else if name =? "fake" then Ok (Images 3)
  else if name =? "flowers" then Ok (Images 3)
  else if name =? "tiny-imagenet" then Ok (Images 3)
  else if name =? "lfw" then Ok (Images 3)
  else if member DEBD name then Ok Table
  else if member ["20newsgroup"; "covtype"; "kddcup99"; "breast_cancer"; "wine"] name then Ok Table
  else Err GenericExc.
(** The shape of one item *)
Definition item_shape (name : string) : res (list nat) :=
  s <- get_data_shape name ;; src <- get_datasets name ;;
  Ok (match src with Synth _ => [2] | Images c => [c; i_H s; i_W s] | Table => [i_C s; i_H s; i_W s] end).

(** * main.py *)
(** main.py:150-153: len(digits) *)
Definition main_classes (classification : bool) : nat := if classification then 10 else 1.
(** main.py:171-176: num_channels and num_features *)
Definition main_sizes (name : string) : res (nat * nat) := s <- get_data_shape name ;; Ok (i_C s, i_H s * i_W s).
