(** Generated by tools/conformance.py from the unit tests of src/translator/table/primary.rs: do not edit. *)
From Verif Require Import Base RuleModel TranslationModel ConfBase.

Definition cf_files : list (str * str) :=
  [([100; 105; 99; 116; 105; 111; 110; 97; 114; 105; 101; 115; 47; 110; 111; 99; 114; 111; 115; 115; 45; 112; 114; 101; 99; 101; 100; 101; 110; 99; 101; 45; 116; 101; 115; 116; 46; 100; 105; 99]%N, [85; 84; 70; 45; 56; 10; 35; 32; 77; 105; 110; 105; 109; 97; 108; 44; 32; 115; 101; 108; 102; 45; 111; 119; 110; 101; 100; 32; 102; 105; 120; 116; 117; 114; 101; 32; 102; 111; 114; 32; 116; 104; 101; 32; 110; 111; 99; 114; 111; 115; 115; 45; 112; 114; 101; 99; 101; 100; 101; 110; 99; 101; 32; 117; 110; 105; 116; 32; 116; 101; 115; 116; 32; 105; 110; 10; 35; 32; 115; 114; 99; 47; 116; 114; 97; 110; 115; 108; 97; 116; 111; 114; 47; 116; 97; 98; 108; 101; 47; 112; 114; 105; 109; 97; 114; 121; 46; 114; 115; 46; 32; 78; 111; 116; 32; 100; 101; 114; 105; 118; 101; 100; 32; 102; 114; 111; 109; 32; 97; 110; 121; 32; 108; 105; 98; 108; 111; 117; 105; 115; 32; 116; 97; 98; 108; 101; 32; 45; 45; 10; 35; 32; 105; 116; 32; 101; 120; 105; 115; 116; 115; 32; 112; 117; 114; 101; 108; 121; 32; 116; 111; 32; 103; 105; 118; 101; 32; 34; 101; 114; 101; 34; 32; 97; 32; 104; 121; 112; 104; 101; 110; 97; 116; 105; 111; 110; 32; 98; 114; 101; 97; 107; 32; 98; 101; 116; 119; 101; 101; 110; 32; 39; 101; 39; 32; 97; 110; 100; 32; 39; 114; 39; 10; 35; 32; 40; 34; 101; 45; 114; 101; 34; 41; 44; 32; 115; 111; 32; 116; 104; 97; 116; 32; 97; 32; 96; 110; 111; 99; 114; 111; 115; 115; 32; 97; 108; 119; 97; 121; 115; 32; 101; 114; 96; 32; 114; 117; 108; 101; 32; 97; 110; 100; 32; 97; 32; 96; 110; 111; 99; 114; 111; 115; 115; 32; 112; 97; 114; 116; 119; 111; 114; 100; 32; 114; 101; 96; 10; 35; 32; 114; 117; 108; 101; 32; 99; 111; 109; 112; 101; 116; 101; 32; 102; 111; 114; 32; 116; 104; 101; 32; 115; 97; 109; 101; 32; 108; 101; 116; 116; 101; 114; 115; 32; 97; 110; 100; 32; 111; 110; 108; 121; 32; 111; 110; 101; 32; 99; 97; 110; 32; 119; 105; 110; 32; 100; 101; 112; 101; 110; 100; 105; 110; 103; 32; 111; 110; 10; 35; 32; 119; 104; 101; 114; 101; 32; 116; 104; 101; 32; 114; 101; 97; 108; 32; 119; 111; 114; 100; 39; 115; 32; 115; 121; 108; 108; 97; 98; 108; 101; 32; 98; 114; 101; 97; 107; 32; 102; 97; 108; 108; 115; 46; 10; 76; 69; 70; 84; 72; 89; 80; 72; 69; 78; 77; 73; 78; 32; 49; 10; 82; 73; 71; 72; 84; 72; 89; 80; 72; 69; 78; 77; 73; 78; 32; 49; 10; 46; 101; 49; 114; 10]%N);
   ([100; 105; 99; 116; 105; 111; 110; 97; 114; 105; 101; 115; 47; 110; 111; 99; 114; 111; 115; 115; 45; 116; 101; 115; 116; 46; 100; 105; 99]%N, [85; 84; 70; 45; 56; 10; 35; 32; 77; 105; 110; 105; 109; 97; 108; 44; 32; 115; 101; 108; 102; 45; 111; 119; 110; 101; 100; 32; 102; 105; 120; 116; 117; 114; 101; 32; 102; 111; 114; 32; 116; 104; 101; 32; 110; 111; 99; 114; 111; 115; 115; 32; 117; 110; 105; 116; 32; 116; 101; 115; 116; 115; 32; 105; 110; 10; 35; 32; 115; 114; 99; 47; 116; 114; 97; 110; 115; 108; 97; 116; 111; 114; 47; 116; 97; 98; 108; 101; 47; 112; 114; 105; 109; 97; 114; 121; 46; 114; 115; 46; 32; 78; 111; 116; 32; 100; 101; 114; 105; 118; 101; 100; 32; 102; 114; 111; 109; 32; 97; 110; 121; 32; 108; 105; 98; 108; 111; 117; 105; 115; 32; 116; 97; 98; 108; 101; 32; 45; 45; 10; 35; 32; 105; 116; 32; 101; 120; 105; 115; 116; 115; 32; 112; 117; 114; 101; 108; 121; 32; 116; 111; 32; 103; 105; 118; 101; 32; 34; 104; 97; 117; 115; 98; 111; 111; 116; 34; 32; 97; 32; 104; 121; 112; 104; 101; 110; 97; 116; 105; 111; 110; 32; 98; 114; 101; 97; 107; 32; 40; 98; 101; 116; 119; 101; 101; 110; 32; 39; 115; 39; 10; 35; 32; 97; 110; 100; 32; 39; 98; 39; 41; 32; 119; 104; 105; 108; 101; 32; 103; 105; 118; 105; 110; 103; 32; 34; 102; 102; 102; 34; 32; 110; 111; 110; 101; 44; 32; 119; 104; 105; 99; 104; 32; 105; 115; 32; 97; 108; 108; 32; 116; 104; 111; 115; 101; 32; 116; 101; 115; 116; 115; 32; 99; 104; 101; 99; 107; 46; 10; 115; 49; 98; 10]%N)].
(** src/translator/table/primary.rs: translate
    always foo 123
    always bar 456
    space \s 0
    foobar => ⠇⠸
       => ⠀⠀
    🐂 => ⠳⠭⠂⠋⠲⠴⠆
 *)
Example primary_translate : cf_main cf_files Forward
    [[97; 108; 119; 97; 121; 115; 32; 102; 111; 111; 32; 49; 50; 51]%N;
     [97; 108; 119; 97; 121; 115; 32; 98; 97; 114; 32; 52; 53; 54]%N;
     [115; 112; 97; 99; 101; 32; 92; 115; 32; 48]%N]
    [([102; 111; 111; 98; 97; 114]%N, [10247; 10296]%N);
     ([32; 32]%N, [10240; 10240]%N);
     ([128002]%N, [10291; 10285; 10242; 10251; 10290; 10292; 10246]%N)] = true.
Proof. vm_compute. reflexivity. Qed.
(** src/translator/table/primary.rs: midword
    lowercase a 1
    lowercase b 2
    lowercase f 3
    lowercase o 4
    lowercase r 5
    always foo 14
    midword bar 15
    space \s 0
    bar => ⠂⠁⠐
    foobar => ⠉⠂⠁⠐
    foobarfoo => ⠉⠑⠉
    foobar foo => ⠉⠂⠁⠐⠀⠉
    foo bar foo => ⠉⠀⠂⠁⠐⠀⠉
 *)
Example primary_midword : cf_main cf_files Forward
    [[108; 111; 119; 101; 114; 99; 97; 115; 101; 32; 97; 32; 49]%N;
     [108; 111; 119; 101; 114; 99; 97; 115; 101; 32; 98; 32; 50]%N;
     [108; 111; 119; 101; 114; 99; 97; 115; 101; 32; 102; 32; 51]%N;
     [108; 111; 119; 101; 114; 99; 97; 115; 101; 32; 111; 32; 52]%N;
     [108; 111; 119; 101; 114; 99; 97; 115; 101; 32; 114; 32; 53]%N;
     [97; 108; 119; 97; 121; 115; 32; 102; 111; 111; 32; 49; 52]%N;
     [109; 105; 100; 119; 111; 114; 100; 32; 98; 97; 114; 32; 49; 53]%N;
     [115; 112; 97; 99; 101; 32; 92; 115; 32; 48]%N]
    [([98; 97; 114]%N, [10242; 10241; 10256]%N);
     ([102; 111; 111; 98; 97; 114]%N, [10249; 10242; 10241; 10256]%N);
     ([102; 111; 111; 98; 97; 114; 102; 111; 111]%N, [10249; 10257; 10249]%N);
     ([102; 111; 111; 98; 97; 114; 32; 102; 111; 111]%N, [10249; 10242; 10241; 10256; 10240; 10249]%N);
     ([102; 111; 111; 32; 98; 97; 114; 32; 102; 111; 111]%N, [10249; 10240; 10242; 10241; 10256; 10240; 10249]%N)] = true.
Proof. vm_compute. reflexivity. Qed.
(** src/translator/table/primary.rs: midword_with_precedence
    lowercase a 1
    lowercase b 2
    lowercase f 3
    lowercase o 4
    lowercase r 5
    always foo 14
    always bar 24
    midword bar 26
    space \s 0
    bar => ⠊
    foobar => ⠉⠊
    foobarfoo => ⠉⠢⠉
    foobar foo => ⠉⠊⠀⠉
    foo bar foo => ⠉⠀⠊⠀⠉
 *)
Example primary_midword_with_precedence : cf_main cf_files Forward
    [[108; 111; 119; 101; 114; 99; 97; 115; 101; 32; 97; 32; 49]%N;
     [108; 111; 119; 101; 114; 99; 97; 115; 101; 32; 98; 32; 50]%N;
     [108; 111; 119; 101; 114; 99; 97; 115; 101; 32; 102; 32; 51]%N;
     [108; 111; 119; 101; 114; 99; 97; 115; 101; 32; 111; 32; 52]%N;
     [108; 111; 119; 101; 114; 99; 97; 115; 101; 32; 114; 32; 53]%N;
     [97; 108; 119; 97; 121; 115; 32; 102; 111; 111; 32; 49; 52]%N;
     [97; 108; 119; 97; 121; 115; 32; 98; 97; 114; 32; 50; 52]%N;
     [109; 105; 100; 119; 111; 114; 100; 32; 98; 97; 114; 32; 50; 54]%N;
     [115; 112; 97; 99; 101; 32; 92; 115; 32; 48]%N]
    [([98; 97; 114]%N, [10250]%N);
     ([102; 111; 111; 98; 97; 114]%N, [10249; 10250]%N);
     ([102; 111; 111; 98; 97; 114; 102; 111; 111]%N, [10249; 10274; 10249]%N);
     ([102; 111; 111; 98; 97; 114; 32; 102; 111; 111]%N, [10249; 10250; 10240; 10249]%N);
     ([102; 111; 111; 32; 98; 97; 114; 32; 102; 111; 111]%N, [10249; 10240; 10250; 10240; 10249]%N)] = true.
Proof. vm_compute. reflexivity. Qed.
(** src/translator/table/primary.rs: endword
    lowercase a 1
    lowercase b 2
    lowercase f 3
    lowercase o 4
    lowercase r 5
    punctuation . 6
    always foo 14
    endword bar 15
    space \s 0
    bar => ⠂⠁⠐
    foobar => ⠉⠑
    foobar. => ⠉⠑⠠
    foobarfoo => ⠉⠂⠁⠐⠉
    foobar foo => ⠉⠑⠀⠉
    foo bar foo => ⠉⠀⠂⠁⠐⠀⠉
 *)
Example primary_endword : cf_main cf_files Forward
    [[108; 111; 119; 101; 114; 99; 97; 115; 101; 32; 97; 32; 49]%N;
     [108; 111; 119; 101; 114; 99; 97; 115; 101; 32; 98; 32; 50]%N;
     [108; 111; 119; 101; 114; 99; 97; 115; 101; 32; 102; 32; 51]%N;
     [108; 111; 119; 101; 114; 99; 97; 115; 101; 32; 111; 32; 52]%N;
     [108; 111; 119; 101; 114; 99; 97; 115; 101; 32; 114; 32; 53]%N;
     [112; 117; 110; 99; 116; 117; 97; 116; 105; 111; 110; 32; 46; 32; 54]%N;
     [97; 108; 119; 97; 121; 115; 32; 102; 111; 111; 32; 49; 52]%N;
     [101; 110; 100; 119; 111; 114; 100; 32; 98; 97; 114; 32; 49; 53]%N;
     [115; 112; 97; 99; 101; 32; 92; 115; 32; 48]%N]
    [([98; 97; 114]%N, [10242; 10241; 10256]%N);
     ([102; 111; 111; 98; 97; 114]%N, [10249; 10257]%N);
     ([102; 111; 111; 98; 97; 114; 46]%N, [10249; 10257; 10272]%N);
     ([102; 111; 111; 98; 97; 114; 102; 111; 111]%N, [10249; 10242; 10241; 10256; 10249]%N);
     ([102; 111; 111; 98; 97; 114; 32; 102; 111; 111]%N, [10249; 10257; 10240; 10249]%N);
     ([102; 111; 111; 32; 98; 97; 114; 32; 102; 111; 111]%N, [10249; 10240; 10242; 10241; 10256; 10240; 10249]%N)] = true.
Proof. vm_compute. reflexivity. Qed.
(** src/translator/table/primary.rs: partword
    lowercase a 1
    lowercase b 2
    lowercase f 3
    lowercase o 4
    lowercase r 5
    punctuation . 6
    always foo 14
    partword bar 15
    space \s 0
    bar => ⠂⠁⠐
    foobar => ⠉⠑
    foobar. => ⠉⠑⠠
    foobarfoo => ⠉⠑⠉
    foobar foo => ⠉⠑⠀⠉
    foobar. foo => ⠉⠑⠠⠀⠉
    foo bar foo => ⠉⠀⠂⠁⠐⠀⠉
 *)
Example primary_partword : cf_main cf_files Forward
    [[108; 111; 119; 101; 114; 99; 97; 115; 101; 32; 97; 32; 49]%N;
     [108; 111; 119; 101; 114; 99; 97; 115; 101; 32; 98; 32; 50]%N;
     [108; 111; 119; 101; 114; 99; 97; 115; 101; 32; 102; 32; 51]%N;
     [108; 111; 119; 101; 114; 99; 97; 115; 101; 32; 111; 32; 52]%N;
     [108; 111; 119; 101; 114; 99; 97; 115; 101; 32; 114; 32; 53]%N;
     [112; 117; 110; 99; 116; 117; 97; 116; 105; 111; 110; 32; 46; 32; 54]%N;
     [97; 108; 119; 97; 121; 115; 32; 102; 111; 111; 32; 49; 52]%N;
     [112; 97; 114; 116; 119; 111; 114; 100; 32; 98; 97; 114; 32; 49; 53]%N;
     [115; 112; 97; 99; 101; 32; 92; 115; 32; 48]%N]
    [([98; 97; 114]%N, [10242; 10241; 10256]%N);
     ([102; 111; 111; 98; 97; 114]%N, [10249; 10257]%N);
     ([102; 111; 111; 98; 97; 114; 46]%N, [10249; 10257; 10272]%N);
     ([102; 111; 111; 98; 97; 114; 102; 111; 111]%N, [10249; 10257; 10249]%N);
     ([102; 111; 111; 98; 97; 114; 32; 102; 111; 111]%N, [10249; 10257; 10240; 10249]%N);
     ([102; 111; 111; 98; 97; 114; 46; 32; 102; 111; 111]%N, [10249; 10257; 10272; 10240; 10249]%N);
     ([102; 111; 111; 32; 98; 97; 114; 32; 102; 111; 111]%N, [10249; 10240; 10242; 10241; 10256; 10240; 10249]%N)] = true.
Proof. vm_compute. reflexivity. Qed.
(** src/translator/table/primary.rs: sufword
    lowercase a 1
    lowercase b 2
    lowercase f 3
    lowercase o 4
    lowercase r 5
    punctuation . 6
    always foo 14
    sufword bar 15
    space \s 0
    bar => ⠑
    foobar => ⠉⠂⠁⠐
    barfoo => ⠑⠉
    foobar. => ⠉⠂⠁⠐⠠
    foobarfoo => ⠉⠂⠁⠐⠉
    foobar foo => ⠉⠂⠁⠐⠀⠉
    foobar. foo => ⠉⠂⠁⠐⠠⠀⠉
    foo bar foo => ⠉⠀⠑⠀⠉
 *)
Example primary_sufword : cf_main cf_files Forward
    [[108; 111; 119; 101; 114; 99; 97; 115; 101; 32; 97; 32; 49]%N;
     [108; 111; 119; 101; 114; 99; 97; 115; 101; 32; 98; 32; 50]%N;
     [108; 111; 119; 101; 114; 99; 97; 115; 101; 32; 102; 32; 51]%N;
     [108; 111; 119; 101; 114; 99; 97; 115; 101; 32; 111; 32; 52]%N;
     [108; 111; 119; 101; 114; 99; 97; 115; 101; 32; 114; 32; 53]%N;
     [112; 117; 110; 99; 116; 117; 97; 116; 105; 111; 110; 32; 46; 32; 54]%N;
     [97; 108; 119; 97; 121; 115; 32; 102; 111; 111; 32; 49; 52]%N;
     [115; 117; 102; 119; 111; 114; 100; 32; 98; 97; 114; 32; 49; 53]%N;
     [115; 112; 97; 99; 101; 32; 92; 115; 32; 48]%N]
    [([98; 97; 114]%N, [10257]%N);
     ([102; 111; 111; 98; 97; 114]%N, [10249; 10242; 10241; 10256]%N);
     ([98; 97; 114; 102; 111; 111]%N, [10257; 10249]%N);
     ([102; 111; 111; 98; 97; 114; 46]%N, [10249; 10242; 10241; 10256; 10272]%N);
     ([102; 111; 111; 98; 97; 114; 102; 111; 111]%N, [10249; 10242; 10241; 10256; 10249]%N);
     ([102; 111; 111; 98; 97; 114; 32; 102; 111; 111]%N, [10249; 10242; 10241; 10256; 10240; 10249]%N);
     ([102; 111; 111; 98; 97; 114; 46; 32; 102; 111; 111]%N, [10249; 10242; 10241; 10256; 10272; 10240; 10249]%N);
     ([102; 111; 111; 32; 98; 97; 114; 32; 102; 111; 111]%N, [10249; 10240; 10257; 10240; 10249]%N)] = true.
Proof. vm_compute. reflexivity. Qed.
(** src/translator/table/primary.rs: prfword
    lowercase a 1
    lowercase b 2
    lowercase f 3
    lowercase o 4
    lowercase r 5
    punctuation . 6
    always foo 14
    prfword bar 15
    space \s 0
    bar => ⠑
    foobar => ⠉⠑
    barfoo => ⠂⠁⠐⠉
    foobar. => ⠉⠑⠠
    foobarfoo => ⠉⠂⠁⠐⠉
    foobar foo => ⠉⠑⠀⠉
    foobar. foo => ⠉⠑⠠⠀⠉
    foo bar foo => ⠉⠀⠑⠀⠉
 *)
Example primary_prfword : cf_main cf_files Forward
    [[108; 111; 119; 101; 114; 99; 97; 115; 101; 32; 97; 32; 49]%N;
     [108; 111; 119; 101; 114; 99; 97; 115; 101; 32; 98; 32; 50]%N;
     [108; 111; 119; 101; 114; 99; 97; 115; 101; 32; 102; 32; 51]%N;
     [108; 111; 119; 101; 114; 99; 97; 115; 101; 32; 111; 32; 52]%N;
     [108; 111; 119; 101; 114; 99; 97; 115; 101; 32; 114; 32; 53]%N;
     [112; 117; 110; 99; 116; 117; 97; 116; 105; 111; 110; 32; 46; 32; 54]%N;
     [97; 108; 119; 97; 121; 115; 32; 102; 111; 111; 32; 49; 52]%N;
     [112; 114; 102; 119; 111; 114; 100; 32; 98; 97; 114; 32; 49; 53]%N;
     [115; 112; 97; 99; 101; 32; 92; 115; 32; 48]%N]
    [([98; 97; 114]%N, [10257]%N);
     ([102; 111; 111; 98; 97; 114]%N, [10249; 10257]%N);
     ([98; 97; 114; 102; 111; 111]%N, [10242; 10241; 10256; 10249]%N);
     ([102; 111; 111; 98; 97; 114; 46]%N, [10249; 10257; 10272]%N);
     ([102; 111; 111; 98; 97; 114; 102; 111; 111]%N, [10249; 10242; 10241; 10256; 10249]%N);
     ([102; 111; 111; 98; 97; 114; 32; 102; 111; 111]%N, [10249; 10257; 10240; 10249]%N);
     ([102; 111; 111; 98; 97; 114; 46; 32; 102; 111; 111]%N, [10249; 10257; 10272; 10240; 10249]%N);
     ([102; 111; 111; 32; 98; 97; 114; 32; 102; 111; 111]%N, [10249; 10240; 10257; 10240; 10249]%N)] = true.
Proof. vm_compute. reflexivity. Qed.
(** src/translator/table/primary.rs: begnum
    digit 1 1
    lowercase a 3456
    begnum a 4
    1 => ⠁
    a => ⠼
    a1 => ⠈⠁
 *)
Example primary_begnum : cf_main cf_files Forward
    [[100; 105; 103; 105; 116; 32; 49; 32; 49]%N;
     [108; 111; 119; 101; 114; 99; 97; 115; 101; 32; 97; 32; 51; 52; 53; 54]%N;
     [98; 101; 103; 110; 117; 109; 32; 97; 32; 52]%N]
    [([49]%N, [10241]%N);
     ([97]%N, [10300]%N);
     ([97; 49]%N, [10248; 10241]%N)] = true.
Proof. vm_compute. reflexivity. Qed.
(** src/translator/table/primary.rs: endnum
    digit 1 1
    lowercase h 125
    lowercase t 2345
    punctuation . 6
    always th 14
    endnum th 15
    th => ⠉
    1th => ⠁⠑
    1th. => ⠁⠑⠠
 *)
Example primary_endnum : cf_main cf_files Forward
    [[100; 105; 103; 105; 116; 32; 49; 32; 49]%N;
     [108; 111; 119; 101; 114; 99; 97; 115; 101; 32; 104; 32; 49; 50; 53]%N;
     [108; 111; 119; 101; 114; 99; 97; 115; 101; 32; 116; 32; 50; 51; 52; 53]%N;
     [112; 117; 110; 99; 116; 117; 97; 116; 105; 111; 110; 32; 46; 32; 54]%N;
     [97; 108; 119; 97; 121; 115; 32; 116; 104; 32; 49; 52]%N;
     [101; 110; 100; 110; 117; 109; 32; 116; 104; 32; 49; 53]%N]
    [([116; 104]%N, [10249]%N);
     ([49; 116; 104]%N, [10241; 10257]%N);
     ([49; 116; 104; 46]%N, [10241; 10257; 10272]%N)] = true.
Proof. vm_compute. reflexivity. Qed.
(** src/translator/table/primary.rs: begnum_punctuation_indicator
    digit 1 1
    punctuation # 3456
    punctuation . 256
    lowercase a 14
    begnum # 4
    #1 => ⠈⠁
    .#1 => ⠲⠈⠁
    a#1 => ⠉⠼⠁
    #a => ⠼⠉
 *)
Example primary_begnum_punctuation_indicator : cf_main cf_files Forward
    [[100; 105; 103; 105; 116; 32; 49; 32; 49]%N;
     [112; 117; 110; 99; 116; 117; 97; 116; 105; 111; 110; 32; 35; 32; 51; 52; 53; 54]%N;
     [112; 117; 110; 99; 116; 117; 97; 116; 105; 111; 110; 32; 46; 32; 50; 53; 54]%N;
     [108; 111; 119; 101; 114; 99; 97; 115; 101; 32; 97; 32; 49; 52]%N;
     [98; 101; 103; 110; 117; 109; 32; 35; 32; 52]%N]
    [([35; 49]%N, [10248; 10241]%N);
     ([46; 35; 49]%N, [10290; 10248; 10241]%N);
     ([97; 35; 49]%N, [10249; 10300; 10241]%N);
     ([35; 97]%N, [10300; 10249]%N)] = true.
Proof. vm_compute. reflexivity. Qed.
(** src/translator/table/primary.rs: endnum_punctuation_indicator
    digit 1 1
    lowercase a 14
    punctuation # 3456
    endnum # 4
    1# => ⠁⠈
    a# => ⠉⠼
    # => ⠼
    1#1 => ⠁⠈⠁
    1#a => ⠁⠈⠉
 *)
Example primary_endnum_punctuation_indicator : cf_main cf_files Forward
    [[100; 105; 103; 105; 116; 32; 49; 32; 49]%N;
     [108; 111; 119; 101; 114; 99; 97; 115; 101; 32; 97; 32; 49; 52]%N;
     [112; 117; 110; 99; 116; 117; 97; 116; 105; 111; 110; 32; 35; 32; 51; 52; 53; 54]%N;
     [101; 110; 100; 110; 117; 109; 32; 35; 32; 52]%N]
    [([49; 35]%N, [10241; 10248]%N);
     ([97; 35]%N, [10249; 10300]%N);
     ([35]%N, [10300]%N);
     ([49; 35; 49]%N, [10241; 10248; 10241]%N);
     ([49; 35; 97]%N, [10241; 10248; 10249]%N)] = true.
Proof. vm_compute. reflexivity. Qed.
(** src/translator/table/primary.rs: prepunc_postpunc
    lowercase f 3
    lowercase o 4
    punctuation ( 23678
    prepunc     ( 2356
    punctuation ) 35678
    postpunc    ) 2356
    ) => ⣴
    ( => ⣦
    () => ⣦⣴
    foo) => ⠄⠈⠈⠶
    (foo => ⠶⠄⠈⠈
    (foo) => ⠶⠄⠈⠈⠶
 *)
Example primary_prepunc_postpunc : cf_main cf_files Forward
    [[108; 111; 119; 101; 114; 99; 97; 115; 101; 32; 102; 32; 51]%N;
     [108; 111; 119; 101; 114; 99; 97; 115; 101; 32; 111; 32; 52]%N;
     [112; 117; 110; 99; 116; 117; 97; 116; 105; 111; 110; 32; 40; 32; 50; 51; 54; 55; 56]%N;
     [112; 114; 101; 112; 117; 110; 99; 32; 32; 32; 32; 32; 40; 32; 50; 51; 53; 54]%N;
     [112; 117; 110; 99; 116; 117; 97; 116; 105; 111; 110; 32; 41; 32; 51; 53; 54; 55; 56]%N;
     [112; 111; 115; 116; 112; 117; 110; 99; 32; 32; 32; 32; 41; 32; 50; 51; 53; 54]%N]
    [([41]%N, [10484]%N);
     ([40]%N, [10470]%N);
     ([40; 41]%N, [10470; 10484]%N);
     ([102; 111; 111; 41]%N, [10244; 10248; 10248; 10294]%N);
     ([40; 102; 111; 111]%N, [10294; 10244; 10248; 10248]%N);
     ([40; 102; 111; 111; 41]%N, [10294; 10244; 10248; 10248; 10294]%N)] = true.
Proof. vm_compute. reflexivity. Qed.
(** src/translator/table/primary.rs: base
    lowercase a 1
    lowercase b 12
    base uppercase A a
    a => ⠁
    A => ⠁
    ab => ⠁⠃
    Ab => ⠁⠃
 *)
Example primary_base : cf_main cf_files Forward
    [[108; 111; 119; 101; 114; 99; 97; 115; 101; 32; 97; 32; 49]%N;
     [108; 111; 119; 101; 114; 99; 97; 115; 101; 32; 98; 32; 49; 50]%N;
     [98; 97; 115; 101; 32; 117; 112; 112; 101; 114; 99; 97; 115; 101; 32; 65; 32; 97]%N]
    [([97]%N, [10241]%N);
     ([65]%N, [10241]%N);
     ([97; 98]%N, [10241; 10243]%N);
     ([65; 98]%N, [10241; 10243]%N)] = true.
Proof. vm_compute. reflexivity. Qed.
(** src/translator/table/primary.rs: match_simple
    lowercase a 1
    lowercase b 2
    lowercase f 3
    lowercase o 4
    lowercase r 5
    match a foo b 14
    foo => ⠄⠈⠈
    afoo => ⠁⠄⠈⠈
    afoob => ⠁⠉⠂
 *)
Example primary_match_simple : cf_main cf_files Forward
    [[108; 111; 119; 101; 114; 99; 97; 115; 101; 32; 97; 32; 49]%N;
     [108; 111; 119; 101; 114; 99; 97; 115; 101; 32; 98; 32; 50]%N;
     [108; 111; 119; 101; 114; 99; 97; 115; 101; 32; 102; 32; 51]%N;
     [108; 111; 119; 101; 114; 99; 97; 115; 101; 32; 111; 32; 52]%N;
     [108; 111; 119; 101; 114; 99; 97; 115; 101; 32; 114; 32; 53]%N;
     [109; 97; 116; 99; 104; 32; 97; 32; 102; 111; 111; 32; 98; 32; 49; 52]%N]
    [([102; 111; 111]%N, [10244; 10248; 10248]%N);
     ([97; 102; 111; 111]%N, [10241; 10244; 10248; 10248]%N);
     ([97; 102; 111; 111; 98]%N, [10241; 10249; 10242]%N)] = true.
Proof. vm_compute. reflexivity. Qed.
(** src/translator/table/primary.rs: match_with_any
    lowercase a 1
    lowercase b 2
    lowercase f 3
    lowercase o 4
    lowercase r 5
    match . foo b 14
    foo => ⠄⠈⠈
    afoo => ⠁⠄⠈⠈
    afoob => ⠁⠉⠂
    ffoob => ⠄⠉⠂
 *)
Example primary_match_with_any : cf_main cf_files Forward
    [[108; 111; 119; 101; 114; 99; 97; 115; 101; 32; 97; 32; 49]%N;
     [108; 111; 119; 101; 114; 99; 97; 115; 101; 32; 98; 32; 50]%N;
     [108; 111; 119; 101; 114; 99; 97; 115; 101; 32; 102; 32; 51]%N;
     [108; 111; 119; 101; 114; 99; 97; 115; 101; 32; 111; 32; 52]%N;
     [108; 111; 119; 101; 114; 99; 97; 115; 101; 32; 114; 32; 53]%N;
     [109; 97; 116; 99; 104; 32; 46; 32; 102; 111; 111; 32; 98; 32; 49; 52]%N]
    [([102; 111; 111]%N, [10244; 10248; 10248]%N);
     ([97; 102; 111; 111]%N, [10241; 10244; 10248; 10248]%N);
     ([97; 102; 111; 111; 98]%N, [10241; 10249; 10242]%N);
     ([102; 102; 111; 111; 98]%N, [10244; 10249; 10242]%N)] = true.
Proof. vm_compute. reflexivity. Qed.
(** src/translator/table/primary.rs: match_with_set
    lowercase f 3
    lowercase o 4
    lowercase s 7
    lowercase z 5
    match [fz] oo [fz] 14
    oo => ⠈⠈
    soo => ⡀⠈⠈
    foof => ⠄⠉⠄
    zoof => ⠐⠉⠄
    soof => ⡀⠈⠈⠄
 *)
Example primary_match_with_set : cf_main cf_files Forward
    [[108; 111; 119; 101; 114; 99; 97; 115; 101; 32; 102; 32; 51]%N;
     [108; 111; 119; 101; 114; 99; 97; 115; 101; 32; 111; 32; 52]%N;
     [108; 111; 119; 101; 114; 99; 97; 115; 101; 32; 115; 32; 55]%N;
     [108; 111; 119; 101; 114; 99; 97; 115; 101; 32; 122; 32; 53]%N;
     [109; 97; 116; 99; 104; 32; 91; 102; 122; 93; 32; 111; 111; 32; 91; 102; 122; 93; 32; 49; 52]%N]
    [([111; 111]%N, [10248; 10248]%N);
     ([115; 111; 111]%N, [10304; 10248; 10248]%N);
     ([102; 111; 111; 102]%N, [10244; 10249; 10244]%N);
     ([122; 111; 111; 102]%N, [10256; 10249; 10244]%N);
     ([115; 111; 111; 102]%N, [10304; 10248; 10248; 10244]%N)] = true.
Proof. vm_compute. reflexivity. Qed.
(** src/translator/table/primary.rs: numeric_indication
    lowercase f 3
    lowercase o 4
    litdigit 1 1
    litdigit 2 12
    litdigit 3 14
    numsign 3456
    nonumsign 56
    numericnocontchars abcdefghij
    123 => ⠼⠁⠃⠉
    123foo => ⠼⠁⠃⠉⠰⠄⠈⠈
    foof => ⠄⠈⠈⠄
 *)
Example primary_numeric_indication : cf_main cf_files Forward
    [[108; 111; 119; 101; 114; 99; 97; 115; 101; 32; 102; 32; 51]%N;
     [108; 111; 119; 101; 114; 99; 97; 115; 101; 32; 111; 32; 52]%N;
     [108; 105; 116; 100; 105; 103; 105; 116; 32; 49; 32; 49]%N;
     [108; 105; 116; 100; 105; 103; 105; 116; 32; 50; 32; 49; 50]%N;
     [108; 105; 116; 100; 105; 103; 105; 116; 32; 51; 32; 49; 52]%N;
     [110; 117; 109; 115; 105; 103; 110; 32; 51; 52; 53; 54]%N;
     [110; 111; 110; 117; 109; 115; 105; 103; 110; 32; 53; 54]%N;
     [110; 117; 109; 101; 114; 105; 99; 110; 111; 99; 111; 110; 116; 99; 104; 97; 114; 115; 32; 97; 98; 99; 100; 101; 102; 103; 104; 105; 106]%N]
    [([49; 50; 51]%N, [10300; 10241; 10243; 10249]%N);
     ([49; 50; 51; 102; 111; 111]%N, [10300; 10241; 10243; 10249; 10288; 10244; 10248; 10248]%N);
     ([102; 111; 111; 102]%N, [10244; 10248; 10248; 10244]%N)] = true.
Proof. vm_compute. reflexivity. Qed.
(** src/translator/table/primary.rs: uppercase_indication
    lowercase a 1
    lowercase b 12
    lowercase c 14
    base uppercase A a
    base uppercase B b
    base uppercase C c
    capsletter 46
    begcapsword 6-6
    abc => ⠁⠃⠉
    Abc => ⠨⠁⠃⠉
    ABC => ⠠⠠⠁⠃⠉
 *)
Example primary_uppercase_indication : cf_main cf_files Forward
    [[108; 111; 119; 101; 114; 99; 97; 115; 101; 32; 97; 32; 49]%N;
     [108; 111; 119; 101; 114; 99; 97; 115; 101; 32; 98; 32; 49; 50]%N;
     [108; 111; 119; 101; 114; 99; 97; 115; 101; 32; 99; 32; 49; 52]%N;
     [98; 97; 115; 101; 32; 117; 112; 112; 101; 114; 99; 97; 115; 101; 32; 65; 32; 97]%N;
     [98; 97; 115; 101; 32; 117; 112; 112; 101; 114; 99; 97; 115; 101; 32; 66; 32; 98]%N;
     [98; 97; 115; 101; 32; 117; 112; 112; 101; 114; 99; 97; 115; 101; 32; 67; 32; 99]%N;
     [99; 97; 112; 115; 108; 101; 116; 116; 101; 114; 32; 52; 54]%N;
     [98; 101; 103; 99; 97; 112; 115; 119; 111; 114; 100; 32; 54; 45; 54]%N]
    [([97; 98; 99]%N, [10241; 10243; 10249]%N);
     ([65; 98; 99]%N, [10280; 10241; 10243; 10249]%N);
     ([65; 66; 67]%N, [10272; 10272; 10241; 10243; 10249]%N)] = true.
Proof. vm_compute. reflexivity. Qed.
(** src/translator/table/primary.rs: lettersign_indication
    lowercase a 1
    lowercase b 12
    lowercase c 14
    lowercase d 145
    lowercase e 15
    lowercase f 124
    lowercase o 135
    lowercase u 136
    lowercase t 2345
    letsign 6
    word about 1-12
    contraction ab
    contraction cd
    about => ⠁⠃
    ab => ⠠⠁⠃
    cd => ⠠⠉⠙
    abcd => ⠁⠃⠉⠙
    ef => ⠑⠋
 *)
Example primary_lettersign_indication : cf_main cf_files Forward
    [[108; 111; 119; 101; 114; 99; 97; 115; 101; 32; 97; 32; 49]%N;
     [108; 111; 119; 101; 114; 99; 97; 115; 101; 32; 98; 32; 49; 50]%N;
     [108; 111; 119; 101; 114; 99; 97; 115; 101; 32; 99; 32; 49; 52]%N;
     [108; 111; 119; 101; 114; 99; 97; 115; 101; 32; 100; 32; 49; 52; 53]%N;
     [108; 111; 119; 101; 114; 99; 97; 115; 101; 32; 101; 32; 49; 53]%N;
     [108; 111; 119; 101; 114; 99; 97; 115; 101; 32; 102; 32; 49; 50; 52]%N;
     [108; 111; 119; 101; 114; 99; 97; 115; 101; 32; 111; 32; 49; 51; 53]%N;
     [108; 111; 119; 101; 114; 99; 97; 115; 101; 32; 117; 32; 49; 51; 54]%N;
     [108; 111; 119; 101; 114; 99; 97; 115; 101; 32; 116; 32; 50; 51; 52; 53]%N;
     [108; 101; 116; 115; 105; 103; 110; 32; 54]%N;
     [119; 111; 114; 100; 32; 97; 98; 111; 117; 116; 32; 49; 45; 49; 50]%N;
     [99; 111; 110; 116; 114; 97; 99; 116; 105; 111; 110; 32; 97; 98]%N;
     [99; 111; 110; 116; 114; 97; 99; 116; 105; 111; 110; 32; 99; 100]%N]
    [([97; 98; 111; 117; 116]%N, [10241; 10243]%N);
     ([97; 98]%N, [10272; 10241; 10243]%N);
     ([99; 100]%N, [10272; 10249; 10265]%N);
     ([97; 98; 99; 100]%N, [10241; 10243; 10249; 10265]%N);
     ([101; 102]%N, [10257; 10251]%N)] = true.
Proof. vm_compute. reflexivity. Qed.
(** src/translator/table/primary.rs: nocontractsign_indication
    lowercase a 1
    lowercase b 12
    lowercase c 14
    lowercase d 145
    lowercase e 15
    lowercase f 124
    lowercase o 135
    lowercase u 136
    lowercase t 2345
    nocontractsign 6
    word about 1-12
    contraction ab
    contraction cd
    about => ⠁⠃
    ab => ⠠⠁⠃
    cd => ⠠⠉⠙
    abcd => ⠁⠃⠉⠙
    ef => ⠑⠋
 *)
Example primary_nocontractsign_indication : cf_main cf_files Forward
    [[108; 111; 119; 101; 114; 99; 97; 115; 101; 32; 97; 32; 49]%N;
     [108; 111; 119; 101; 114; 99; 97; 115; 101; 32; 98; 32; 49; 50]%N;
     [108; 111; 119; 101; 114; 99; 97; 115; 101; 32; 99; 32; 49; 52]%N;
     [108; 111; 119; 101; 114; 99; 97; 115; 101; 32; 100; 32; 49; 52; 53]%N;
     [108; 111; 119; 101; 114; 99; 97; 115; 101; 32; 101; 32; 49; 53]%N;
     [108; 111; 119; 101; 114; 99; 97; 115; 101; 32; 102; 32; 49; 50; 52]%N;
     [108; 111; 119; 101; 114; 99; 97; 115; 101; 32; 111; 32; 49; 51; 53]%N;
     [108; 111; 119; 101; 114; 99; 97; 115; 101; 32; 117; 32; 49; 51; 54]%N;
     [108; 111; 119; 101; 114; 99; 97; 115; 101; 32; 116; 32; 50; 51; 52; 53]%N;
     [110; 111; 99; 111; 110; 116; 114; 97; 99; 116; 115; 105; 103; 110; 32; 54]%N;
     [119; 111; 114; 100; 32; 97; 98; 111; 117; 116; 32; 49; 45; 49; 50]%N;
     [99; 111; 110; 116; 114; 97; 99; 116; 105; 111; 110; 32; 97; 98]%N;
     [99; 111; 110; 116; 114; 97; 99; 116; 105; 111; 110; 32; 99; 100]%N]
    [([97; 98; 111; 117; 116]%N, [10241; 10243]%N);
     ([97; 98]%N, [10272; 10241; 10243]%N);
     ([99; 100]%N, [10272; 10249; 10265]%N);
     ([97; 98; 99; 100]%N, [10241; 10243; 10249; 10265]%N);
     ([101; 102]%N, [10257; 10251]%N)] = true.
Proof. vm_compute. reflexivity. Qed.
(** src/translator/table/primary.rs: nocross
    include dictionaries/nocross-test.dic
    lowercase a 1
    lowercase b 12
    lowercase h 125
    lowercase o 135
    lowercase s 234
    lowercase t 2345
    lowercase u 136
    always hausboot 123
    nocross always hausboot 456
    always fff 123
    nocross always fff 456
    space \s 0
    hausboot => ⠇
    fff => ⠸
 *)
Example primary_nocross : cf_main cf_files Forward
    [[105; 110; 99; 108; 117; 100; 101; 32; 100; 105; 99; 116; 105; 111; 110; 97; 114; 105; 101; 115; 47; 110; 111; 99; 114; 111; 115; 115; 45; 116; 101; 115; 116; 46; 100; 105; 99]%N;
     [108; 111; 119; 101; 114; 99; 97; 115; 101; 32; 97; 32; 49]%N;
     [108; 111; 119; 101; 114; 99; 97; 115; 101; 32; 98; 32; 49; 50]%N;
     [108; 111; 119; 101; 114; 99; 97; 115; 101; 32; 104; 32; 49; 50; 53]%N;
     [108; 111; 119; 101; 114; 99; 97; 115; 101; 32; 111; 32; 49; 51; 53]%N;
     [108; 111; 119; 101; 114; 99; 97; 115; 101; 32; 115; 32; 50; 51; 52]%N;
     [108; 111; 119; 101; 114; 99; 97; 115; 101; 32; 116; 32; 50; 51; 52; 53]%N;
     [108; 111; 119; 101; 114; 99; 97; 115; 101; 32; 117; 32; 49; 51; 54]%N;
     [97; 108; 119; 97; 121; 115; 32; 104; 97; 117; 115; 98; 111; 111; 116; 32; 49; 50; 51]%N;
     [110; 111; 99; 114; 111; 115; 115; 32; 97; 108; 119; 97; 121; 115; 32; 104; 97; 117; 115; 98; 111; 111; 116; 32; 52; 53; 54]%N;
     [97; 108; 119; 97; 121; 115; 32; 102; 102; 102; 32; 49; 50; 51]%N;
     [110; 111; 99; 114; 111; 115; 115; 32; 97; 108; 119; 97; 121; 115; 32; 102; 102; 102; 32; 52; 53; 54]%N;
     [115; 112; 97; 99; 101; 32; 92; 115; 32; 48]%N]
    [([104; 97; 117; 115; 98; 111; 111; 116]%N, [10247]%N);
     ([102; 102; 102]%N, [10296]%N)] = true.
Proof. vm_compute. reflexivity. Qed.
(** src/translator/table/primary.rs: nocross_without_plain_counterpart
    include dictionaries/nocross-test.dic
    lowercase f 124
    nocross always fff 456
    space \s 0
    fff => ⠸
 *)
Example primary_nocross_without_plain_counterpart : cf_main cf_files Forward
    [[105; 110; 99; 108; 117; 100; 101; 32; 100; 105; 99; 116; 105; 111; 110; 97; 114; 105; 101; 115; 47; 110; 111; 99; 114; 111; 115; 115; 45; 116; 101; 115; 116; 46; 100; 105; 99]%N;
     [108; 111; 119; 101; 114; 99; 97; 115; 101; 32; 102; 32; 49; 50; 52]%N;
     [110; 111; 99; 114; 111; 115; 115; 32; 97; 108; 119; 97; 121; 115; 32; 102; 102; 102; 32; 52; 53; 54]%N;
     [115; 112; 97; 99; 101; 32; 92; 115; 32; 48]%N]
    [([102; 102; 102]%N, [10296]%N)] = true.
Proof. vm_compute. reflexivity. Qed.
(** src/translator/table/primary.rs: nocross_precedence_follows_word_hyphenation
    include dictionaries/nocross-precedence-test.dic
    lowercase e 1
    lowercase r 12
    nocross always er 6
    nocross partword re 56
    ere => ⠁⠰
 *)
Example primary_nocross_precedence_follows_word_hyphenation : cf_main cf_files Forward
    [[105; 110; 99; 108; 117; 100; 101; 32; 100; 105; 99; 116; 105; 111; 110; 97; 114; 105; 101; 115; 47; 110; 111; 99; 114; 111; 115; 115; 45; 112; 114; 101; 99; 101; 100; 101; 110; 99; 101; 45; 116; 101; 115; 116; 46; 100; 105; 99]%N;
     [108; 111; 119; 101; 114; 99; 97; 115; 101; 32; 101; 32; 49]%N;
     [108; 111; 119; 101; 114; 99; 97; 115; 101; 32; 114; 32; 49; 50]%N;
     [110; 111; 99; 114; 111; 115; 115; 32; 97; 108; 119; 97; 121; 115; 32; 101; 114; 32; 54]%N;
     [110; 111; 99; 114; 111; 115; 115; 32; 112; 97; 114; 116; 119; 111; 114; 100; 32; 114; 101; 32; 53; 54]%N]
    [([101; 114; 101]%N, [10241; 10288]%N)] = true.
Proof. vm_compute. reflexivity. Qed.
(** src/translator/table/primary.rs: backtranslation
    lowercase f 3
    lowercase o 4
    always foo 123
    always bar 456
    space \s 0
    ⠇⠸ => foobar
    ⠀⠀ =>   
    ⠄⠈⠈ => foo
 *)
Example primary_backtranslation : cf_main cf_files Backward
    [[108; 111; 119; 101; 114; 99; 97; 115; 101; 32; 102; 32; 51]%N;
     [108; 111; 119; 101; 114; 99; 97; 115; 101; 32; 111; 32; 52]%N;
     [97; 108; 119; 97; 121; 115; 32; 102; 111; 111; 32; 49; 50; 51]%N;
     [97; 108; 119; 97; 121; 115; 32; 98; 97; 114; 32; 52; 53; 54]%N;
     [115; 112; 97; 99; 101; 32; 92; 115; 32; 48]%N]
    [([10247; 10296]%N, [102; 111; 111; 98; 97; 114]%N);
     ([10240; 10240]%N, [32; 32]%N);
     ([10244; 10248; 10248]%N, [102; 111; 111]%N)] = true.
Proof. vm_compute. reflexivity. Qed.
(** src/translator/table/primary.rs: indication_not_reemitted_at_zero_length_candidate
    digit 0 1
    lowercase i 24
    letsign 6
    context $d[]$l @6
    0i => ⠁⠠⠠⠊
 *)
Example primary_indication_not_reemitted_at_zero_length_candidate : cf_main cf_files Forward
    [[100; 105; 103; 105; 116; 32; 48; 32; 49]%N;
     [108; 111; 119; 101; 114; 99; 97; 115; 101; 32; 105; 32; 50; 52]%N;
     [108; 101; 116; 115; 105; 103; 110; 32; 54]%N;
     [99; 111; 110; 116; 101; 120; 116; 32; 36; 100; 91; 93; 36; 108; 32; 64; 54]%N]
    [([48; 105]%N, [10241; 10272; 10272; 10250]%N)] = true.
Proof. vm_compute. reflexivity. Qed.
(** src/translator/table/primary.rs: context_with_variable
    lowercase a 1
    sign : 123
    sign ; 456
    context '':'' @123#1=1
    context #1=1''a'' @3#1=1
    context '';'' @456#1=0
    aa => ⠁⠁
    aa;aa => ⠁⠁⠸⠁⠁
    aa:aa;aa => ⠁⠁⠇⠄⠄⠸⠁⠁
 *)
Example primary_context_with_variable : cf_main cf_files Forward
    [[108; 111; 119; 101; 114; 99; 97; 115; 101; 32; 97; 32; 49]%N;
     [115; 105; 103; 110; 32; 58; 32; 49; 50; 51]%N;
     [115; 105; 103; 110; 32; 59; 32; 52; 53; 54]%N;
     [99; 111; 110; 116; 101; 120; 116; 32; 34; 58; 34; 32; 64; 49; 50; 51; 35; 49; 61; 49]%N;
     [99; 111; 110; 116; 101; 120; 116; 32; 35; 49; 61; 49; 34; 97; 34; 32; 64; 51; 35; 49; 61; 49]%N;
     [99; 111; 110; 116; 101; 120; 116; 32; 34; 59; 34; 32; 64; 52; 53; 54; 35; 49; 61; 48]%N]
    [([97; 97]%N, [10241; 10241]%N);
     ([97; 97; 59; 97; 97]%N, [10241; 10241; 10296; 10241; 10241]%N);
     ([97; 97; 58; 97; 97; 59; 97; 97]%N, [10241; 10241; 10247; 10244; 10244; 10296; 10241; 10241]%N)] = true.
Proof. vm_compute. reflexivity. Qed.
(** src/translator/table/primary.rs: always_with_uppercase
    lowercase a 1
    lowercase b 12
    lowercase c 14
    base uppercase A a
    base uppercase B b
    base uppercase C c
    capsletter 46
    begcapsword 6-6
    always abc 78
    abc => ⣀
    Abc => ⠨⣀
    ABC => ⠠⠠⣀
 *)
Example primary_always_with_uppercase : cf_main cf_files Forward
    [[108; 111; 119; 101; 114; 99; 97; 115; 101; 32; 97; 32; 49]%N;
     [108; 111; 119; 101; 114; 99; 97; 115; 101; 32; 98; 32; 49; 50]%N;
     [108; 111; 119; 101; 114; 99; 97; 115; 101; 32; 99; 32; 49; 52]%N;
     [98; 97; 115; 101; 32; 117; 112; 112; 101; 114; 99; 97; 115; 101; 32; 65; 32; 97]%N;
     [98; 97; 115; 101; 32; 117; 112; 112; 101; 114; 99; 97; 115; 101; 32; 66; 32; 98]%N;
     [98; 97; 115; 101; 32; 117; 112; 112; 101; 114; 99; 97; 115; 101; 32; 67; 32; 99]%N;
     [99; 97; 112; 115; 108; 101; 116; 116; 101; 114; 32; 52; 54]%N;
     [98; 101; 103; 99; 97; 112; 115; 119; 111; 114; 100; 32; 54; 45; 54]%N;
     [97; 108; 119; 97; 121; 115; 32; 97; 98; 99; 32; 55; 56]%N]
    [([97; 98; 99]%N, [10432]%N);
     ([65; 98; 99]%N, [10280; 10432]%N);
     ([65; 66; 67]%N, [10272; 10272; 10432]%N)] = true.
Proof. vm_compute. reflexivity. Qed.
(** src/translator/table/primary.rs: backward_capsletter_beats_colliding_punctuation_and_titlecases_next_letter
    lowercase a 1
    lowercase b 12
    capsletter 46
    punctuation $ 46
    ⠨⠃ => B
 *)
Example primary_backward_capsletter_beats_colliding_punctuation_and_titlecases_next_letter : cf_main cf_files Backward
    [[108; 111; 119; 101; 114; 99; 97; 115; 101; 32; 97; 32; 49]%N;
     [108; 111; 119; 101; 114; 99; 97; 115; 101; 32; 98; 32; 49; 50]%N;
     [99; 97; 112; 115; 108; 101; 116; 116; 101; 114; 32; 52; 54]%N;
     [112; 117; 110; 99; 116; 117; 97; 116; 105; 111; 110; 32; 36; 32; 52; 54]%N]
    [([10280; 10243]%N, [66]%N)] = true.
Proof. vm_compute. reflexivity. Qed.
(** src/translator/table/primary.rs: backward_numsign_prefers_digit_reading_of_shared_dots
    lowercase a 1
    litdigit 1 1
    numsign 3456
    ⠼⠁ => 1
    ⠁ => a
 *)
Example primary_backward_numsign_prefers_digit_reading_of_shared_dots : cf_main cf_files Backward
    [[108; 111; 119; 101; 114; 99; 97; 115; 101; 32; 97; 32; 49]%N;
     [108; 105; 116; 100; 105; 103; 105; 116; 32; 49; 32; 49]%N;
     [110; 117; 109; 115; 105; 103; 110; 32; 51; 52; 53; 54]%N]
    [([10300; 10241]%N, [49]%N);
     ([10241]%N, [97]%N)] = true.
Proof. vm_compute. reflexivity. Qed.
(** src/translator/table/primary.rs: backward_begcapsword_uppercases_whole_word
    lowercase a 1
    lowercase b 12
    begcapsword 46-46
    ⠨⠨⠁⠃ => AB
 *)
Example primary_backward_begcapsword_uppercases_whole_word : cf_main cf_files Backward
    [[108; 111; 119; 101; 114; 99; 97; 115; 101; 32; 97; 32; 49]%N;
     [108; 111; 119; 101; 114; 99; 97; 115; 101; 32; 98; 32; 49; 50]%N;
     [98; 101; 103; 99; 97; 112; 115; 119; 111; 114; 100; 32; 52; 54; 45; 52; 54]%N]
    [([10280; 10280; 10241; 10243]%N, [65; 66]%N)] = true.
Proof. vm_compute. reflexivity. Qed.
(** src/translator/table/primary.rs: backward_capsletter_does_not_shadow_a_real_letter_sharing_its_dots
    lowercase a 1
    letter b 6
    capsletter 6
    ⠠⠁ => ba
 *)
Example primary_backward_capsletter_does_not_shadow_a_real_letter_sharing_its_dots : cf_main cf_files Backward
    [[108; 111; 119; 101; 114; 99; 97; 115; 101; 32; 97; 32; 49]%N;
     [108; 101; 116; 116; 101; 114; 32; 98; 32; 54]%N;
     [99; 97; 112; 115; 108; 101; 116; 116; 101; 114; 32; 54]%N]
    [([10272; 10241]%N, [98; 97]%N)] = true.
Proof. vm_compute. reflexivity. Qed.
