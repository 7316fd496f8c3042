(** The committed files of tests and fuzz functions in gen/tests, and the texts that the model
    writes for the same data, read as Go: the same functions.  The tests pass with the committed
    parsers.  Comparisons on examples only; what holds of all corpora is in P_TestText.v. *)
From Coq Require Import ZArith String Ascii List Bool.
From Verif Require Import PegModel PegGrammar Base Ast InspectModel GoLang GenModel GenPrint GenExamples GoldenExamples TvModel PkgModel HarnessModel GoText TextModel GoTestText TestTextModel P_TestText.
Import ListNotations.
Open Scope string_scope.
Open Scope list_scope.

(** The suites of a source, with the data of the tests that were read; without a test they are constrained. *)
Definition suitesFor (src : string) (hs : list harness) : list rawSuite :=
  match parsedSource src with
  | Some (Ok f) =>
      map (fun s => (sname s,
        match find (fun h => String.eqb (hName h) ("Test" ++ simpleCamel (sname s) ++ "Corpus")) hs with
        | Some h => map (fun d => (Some d, [])) (hTable h)
        | None => [(None, [("", [])])]
        end)) (filter (fun s => negb (Extern s)) (fstructs f))
  | _ => []
  end.
Definition passes (pkg : string) (ds : list decl) (hs : list harness) : bool :=
  forallb (fun h => match runTest (programOf ds) 300 (emittedOf h) with Ok _ => true | _ => false end) hs.
Definition sameHarness (src pkg go test fuzz : string) : Prop :=
  exists ds hs zs, readGo 300 go = Some (pkg, ds) /\ readTests 300 test = Some (pkg, hs) /\ readFuzzers 300 fuzz = Some (pkg, zs) /\
    readTests 300 (TestsText simpleCamel pkg (suitesFor src hs)) = Some (pkg, hs) /\
    readFuzzers 300 (FuzzText simpleCamel pkg (suitesFor src hs)) = Some (pkg, zs) /\
    constraintsOf fuzz = ["gofuzz"] /\ constraintsOf test = [] /\ passes pkg ds hs = true.
Ltac same := eexists _, _, _; repeat (split; [vm_compute; reflexivity|]); vm_compute; reflexivity.

Definition test_color := "// Code generated by trunnel. DO NOT EDIT.

package color

import ""testing""

func TestColorCorpus(t *testing.T) {
	cases := []struct {
		Data []byte
	}{
		{
			Data: []byte{0xfd, 0x94, 0x1},
		},
	}
	for _, c := range cases {
		_, err := ParseColor(c.Data)
		if err != nil {
			t.Fatal(err)
		}
	}
}
".

Definition fuzz_color := "// Code generated by trunnel. DO NOT EDIT.

// +build gofuzz

package color

func FuzzColor(data []byte) int {
	_, err := ParseColor(data)
	if err != nil {
		return 0
	}
	return 1
}
".

Example harness_color : sameHarness src_color "color" go_color test_color fuzz_color.
Proof. same. Qed.

Definition test_constant := "// Code generated by trunnel. DO NOT EDIT.

package constant

import ""testing""

func TestConstantsCorpus(t *testing.T) {
	cases := []struct {
		Data []byte
	}{
		{
			Data: []byte{0x42},
		},
	}
	for _, c := range cases {
		_, err := ParseConstants(c.Data)
		if err != nil {
			t.Fatal(err)
		}
	}
}
".

Definition fuzz_constant := "// Code generated by trunnel. DO NOT EDIT.

// +build gofuzz

package constant

func FuzzConstants(data []byte) int {
	_, err := ParseConstants(data)
	if err != nil {
		return 0
	}
	return 1
}
".

Example harness_constant : sameHarness src_constant "constant" go_constant test_constant fuzz_constant.
Proof. same. Qed.

Definition test_constraint := "// Code generated by trunnel. DO NOT EDIT.

package constraint

import ""testing""

func TestDateCorpus(t *testing.T) {
	cases := []struct {
		Data []byte
	}{
		{
			Data: []byte{0x3b, 0x8, 0x1, 0x11},
		},
	}
	for _, c := range cases {
		_, err := ParseDate(c.Data)
		if err != nil {
			t.Fatal(err)
		}
	}
}
".

Definition fuzz_constraint := "// Code generated by trunnel. DO NOT EDIT.

// +build gofuzz

package constraint

func FuzzDate(data []byte) int {
	_, err := ParseDate(data)
	if err != nil {
		return 0
	}
	return 1
}
".

Example harness_constraint : sameHarness src_constraint "constraint" go_constraint test_constraint fuzz_constraint.
Proof. same. Qed.

Definition test_contexts := "// Code generated by trunnel. DO NOT EDIT.

package contexts

import ""testing""

func TestPointCorpus(t *testing.T) {
	cases := []struct {
		Data []byte
	}{
		{
			Data: []byte{0x25, 0x1},
		},
	}
	for _, c := range cases {
		_, err := ParsePoint(c.Data)
		if err != nil {
			t.Fatal(err)
		}
	}
}
".

Definition fuzz_contexts := "// Code generated by trunnel. DO NOT EDIT.

// +build gofuzz

package contexts

func FuzzPoint(data []byte) int {
	_, err := ParsePoint(data)
	if err != nil {
		return 0
	}
	return 1
}
".

Example harness_contexts : sameHarness src_contexts "contexts" go_contexts test_contexts fuzz_contexts.
Proof. same. Qed.

Definition test_eos := "// Code generated by trunnel. DO NOT EDIT.

package eos

import ""testing""

func TestFourbytesCorpus(t *testing.T) {
	cases := []struct {
		Data []byte
	}{
		{
			Data: []byte{0xfd, 0xc2, 0x1, 0x94},
		},
	}
	for _, c := range cases {
		_, err := ParseFourbytes(c.Data)
		if err != nil {
			t.Fatal(err)
		}
	}
}
".

Definition fuzz_eos := "// Code generated by trunnel. DO NOT EDIT.

// +build gofuzz

package eos

func FuzzFourbytes(data []byte) int {
	_, err := ParseFourbytes(data)
	if err != nil {
		return 0
	}
	return 1
}
".

Example harness_eos : sameHarness src_eos "eos" go_eos test_eos fuzz_eos.
Proof. same. Qed.

Definition test_fixie := "// Code generated by trunnel. DO NOT EDIT.

package fixie

import ""testing""

func TestColorCorpus(t *testing.T) {
	cases := []struct {
		Data []byte
	}{
		{
			Data: []byte{0xfd, 0x94, 0x1},
		},
	}
	for _, c := range cases {
		_, err := ParseColor(c.Data)
		if err != nil {
			t.Fatal(err)
		}
	}
}

func TestFixieDemoCorpus(t *testing.T) {
	cases := []struct {
		Data []byte
	}{
		{
			Data: []byte{0x51, 0xe1, 0xec, 0x85, 0xe2, 0x2e, 0x89, 0x78, 0xa1, 0xd4, 0xf, 0x85, 0x51, 0x46, 0x39, 0xd, 0xe0, 0xb1, 0xa7, 0x9e, 0xaf, 0x48, 0x18, 0xd, 0x2d, 0xb, 0x75, 0xfb, 0x2a, 0xbd, 0xf4, 0x4a, 0x4f, 0xf9, 0x5f, 0xf6, 0x62, 0xa5, 0xee, 0xe8, 0xd3, 0xff, 0x12, 0x4, 0x5b, 0x73, 0xc8, 0x6e, 0x41, 0xc0, 0xfc, 0x2f, 0xfa, 0xc2},
		},
	}
	for _, c := range cases {
		_, err := ParseFixieDemo(c.Data)
		if err != nil {
			t.Fatal(err)
		}
	}
}
".

Definition fuzz_fixie := "// Code generated by trunnel. DO NOT EDIT.

// +build gofuzz

package fixie

func FuzzColor(data []byte) int {
	_, err := ParseColor(data)
	if err != nil {
		return 0
	}
	return 1
}

func FuzzFixieDemo(data []byte) int {
	_, err := ParseFixieDemo(data)
	if err != nil {
		return 0
	}
	return 1
}
".

Example harness_fixie : sameHarness src_fixie "fixie" go_fixie test_fixie fuzz_fixie.
Proof. same. Qed.

Definition test_ints := "// Code generated by trunnel. DO NOT EDIT.

package ints

import ""testing""

func TestIntsCorpus(t *testing.T) {
	cases := []struct {
		Data []byte
	}{
		{
			Data: []byte{0x73, 0x4, 0x5b, 0x41, 0xd3, 0xff, 0x12, 0x1, 0x94, 0xfd, 0xc2, 0xfa, 0x2f, 0xfc, 0xc0},
		},
	}
	for _, c := range cases {
		_, err := ParseInts(c.Data)
		if err != nil {
			t.Fatal(err)
		}
	}
}
".

Definition fuzz_ints := "// Code generated by trunnel. DO NOT EDIT.

// +build gofuzz

package ints

func FuzzInts(data []byte) int {
	_, err := ParseInts(data)
	if err != nil {
		return 0
	}
	return 1
}
".

Example harness_ints : sameHarness src_ints "ints" go_ints test_ints fuzz_ints.
Proof. same. Qed.

Definition test_nest := "// Code generated by trunnel. DO NOT EDIT.

package nest

import ""testing""

func TestPointCorpus(t *testing.T) {
	cases := []struct {
		Data []byte
	}{
		{
			Data: []byte{0x94, 0x1},
		},
	}
	for _, c := range cases {
		_, err := ParsePoint(c.Data)
		if err != nil {
			t.Fatal(err)
		}
	}
}

func TestRectCorpus(t *testing.T) {
	cases := []struct {
		Data []byte
	}{
		{
			Data: []byte{0x2f, 0xfa, 0xc2, 0xfd},
		},
	}
	for _, c := range cases {
		_, err := ParseRect(c.Data)
		if err != nil {
			t.Fatal(err)
		}
	}
}
".

Definition fuzz_nest := "// Code generated by trunnel. DO NOT EDIT.

// +build gofuzz

package nest

func FuzzPoint(data []byte) int {
	_, err := ParsePoint(data)
	if err != nil {
		return 0
	}
	return 1
}

func FuzzRect(data []byte) int {
	_, err := ParseRect(data)
	if err != nil {
		return 0
	}
	return 1
}
".

Example harness_nest : sameHarness src_nest "nest" go_nest test_nest fuzz_nest.
Proof. same. Qed.

Definition test_nulterm := "// Code generated by trunnel. DO NOT EDIT.

package nulterm

import ""testing""

func TestNulTermCorpus(t *testing.T) {
	cases := []struct {
		Data []byte
	}{
		{
			Data: []byte{0x94, 0xfd, 0xc2, 0xfa, 0x62, 0x79, 0x68, 0x69, 0x7a, 0x7a, 0x0, 0x1},
		},
	}
	for _, c := range cases {
		_, err := ParseNulTerm(c.Data)
		if err != nil {
			t.Fatal(err)
		}
	}
}
".

Definition fuzz_nulterm := "// Code generated by trunnel. DO NOT EDIT.

// +build gofuzz

package nulterm

func FuzzNulTerm(data []byte) int {
	_, err := ParseNulTerm(data)
	if err != nil {
		return 0
	}
	return 1
}
".

Example harness_nulterm : sameHarness src_nulterm "nulterm" go_nulterm test_nulterm fuzz_nulterm.
Proof. same. Qed.

Definition test_pos := "// Code generated by trunnel. DO NOT EDIT.

package pos

import ""testing""

func TestHasposCorpus(t *testing.T) {
	cases := []struct {
		Data []byte
	}{
		{
			Data: []byte{0x61, 0x6b, 0x62, 0x6c, 0x65, 0x0, 0x62, 0x79, 0x68, 0x69, 0x7a, 0x7a, 0x0, 0x1, 0x94, 0xfd, 0xc2},
		},
	}
	for _, c := range cases {
		_, err := ParseHaspos(c.Data)
		if err != nil {
			t.Fatal(err)
		}
	}
}
".

Definition fuzz_pos := "// Code generated by trunnel. DO NOT EDIT.

// +build gofuzz

package pos

func FuzzHaspos(data []byte) int {
	_, err := ParseHaspos(data)
	if err != nil {
		return 0
	}
	return 1
}
".

Example harness_pos : sameHarness src_pos "pos" go_pos test_pos fuzz_pos.
Proof. same. Qed.

Definition test_rem := "// Code generated by trunnel. DO NOT EDIT.

package rem

import ""testing""

func TestRemCorpus(t *testing.T) {
	cases := []struct {
		Data []byte
	}{
		{
			Data: []byte{0xa5, 0xee, 0xe8, 0x2a, 0x62, 0xf6, 0x5f, 0xf9, 0x4f, 0x6e, 0xc8, 0x73, 0x5b, 0x4, 0x12, 0xff, 0xd3, 0x41, 0xc0},
		},
	}
	for _, c := range cases {
		_, err := ParseRem(c.Data)
		if err != nil {
			t.Fatal(err)
		}
	}
}
".

Definition fuzz_rem := "// Code generated by trunnel. DO NOT EDIT.

// +build gofuzz

package rem

func FuzzRem(data []byte) int {
	_, err := ParseRem(data)
	if err != nil {
		return 0
	}
	return 1
}
".

Example harness_rem : sameHarness src_rem "rem" go_rem test_rem fuzz_rem.
Proof. same. Qed.

Definition test_unionbasic := "// Code generated by trunnel. DO NOT EDIT.

package unionbasic

import ""testing""

func TestDateCorpus(t *testing.T) {
	cases := []struct {
		Data []byte
	}{
		{
			Data: []byte{0xfd, 0xc2, 0x94, 0x1},
		},
	}
	for _, c := range cases {
		_, err := ParseDate(c.Data)
		if err != nil {
			t.Fatal(err)
		}
	}
}

func TestBasicCorpus(t *testing.T) {
	cases := []struct {
		Data []byte
	}{
		{
			Data: []byte{0x3, 0xfc, 0x59, 0x2f, 0xfa},
		},
		{
			Data: []byte{0x3, 0xc1, 0x8f, 0xd, 0xce},
		},
		{
			Data: []byte{0x4, 0x8a, 0xf, 0x0, 0x3f, 0x5c, 0x4, 0x77, 0xcc},
		},
		{
			Data: []byte{0x6, 0x76, 0x77, 0x73, 0x68, 0x6f, 0x69, 0x70, 0x67, 0x7a, 0x6d, 0x67, 0x61, 0x78, 0x0},
		},
	}
	for _, c := range cases {
		_, err := ParseBasic(c.Data)
		if err != nil {
			t.Fatal(err)
		}
	}
}
".

Definition fuzz_unionbasic := "// Code generated by trunnel. DO NOT EDIT.

// +build gofuzz

package unionbasic

func FuzzDate(data []byte) int {
	_, err := ParseDate(data)
	if err != nil {
		return 0
	}
	return 1
}

func FuzzBasic(data []byte) int {
	_, err := ParseBasic(data)
	if err != nil {
		return 0
	}
	return 1
}
".

Example harness_unionbasic : sameHarness src_unionbasic "unionbasic" go_unionbasic test_unionbasic fuzz_unionbasic.
Proof. same. Qed.

Definition test_unioncmds := "// Code generated by trunnel. DO NOT EDIT.

package unioncmds

import ""testing""

func TestUnionCmdsCorpus(t *testing.T) {
	cases := []struct {
		Data []byte
	}{
		{
			Data: []byte{0x1, 0x1, 0x94, 0xfd, 0xc2},
		},
		{
			Data: []byte{0x87, 0x4e, 0xa3, 0xae, 0x5e, 0xfa, 0x2f, 0xfc, 0xcc, 0x1, 0x94, 0xfd, 0xc2},
		},
	}
	for _, c := range cases {
		_, err := ParseUnionCmds(c.Data)
		if err != nil {
			t.Fatal(err)
		}
	}
}
".

Definition fuzz_unioncmds := "// Code generated by trunnel. DO NOT EDIT.

// +build gofuzz

package unioncmds

func FuzzUnionCmds(data []byte) int {
	_, err := ParseUnionCmds(data)
	if err != nil {
		return 0
	}
	return 1
}
".

Example harness_unioncmds : sameHarness src_unioncmds "unioncmds" go_unioncmds test_unioncmds fuzz_unioncmds.
Proof. same. Qed.

Definition test_unionlen := "// Code generated by trunnel. DO NOT EDIT.

package unionlen

import ""testing""

func TestUnionWithLenCorpus(t *testing.T) {
	cases := []struct {
		Data []byte
	}{
		{
			Data: []byte{0x0, 0x1, 0x0, 0x3, 0xfa, 0xc2, 0xfd, 0x1, 0x94},
		},
		{
			Data: []byte{0x0, 0x2, 0x0, 0x4, 0xe2, 0xd6, 0xf3, 0xc3, 0x1, 0x94},
		},
		{
			Data: []byte{0x0, 0x2, 0x0, 0x6, 0xbe, 0xcc, 0xed, 0x54, 0x2f, 0xfc, 0x1, 0x94},
		},
		{
			Data: []byte{0x97, 0x18, 0x0, 0x7, 0x5a, 0x52, 0x88, 0x5e, 0xae, 0xa3, 0x4e, 0x1, 0x94},
		},
	}
	for _, c := range cases {
		_, err := ParseUnionWithLen(c.Data)
		if err != nil {
			t.Fatal(err)
		}
	}
}
".

Definition fuzz_unionlen := "// Code generated by trunnel. DO NOT EDIT.

// +build gofuzz

package unionlen

func FuzzUnionWithLen(data []byte) int {
	_, err := ParseUnionWithLen(data)
	if err != nil {
		return 0
	}
	return 1
}
".

Example harness_unionlen : sameHarness src_unionlen "unionlen" go_unionlen test_unionlen fuzz_unionlen.
Proof. same. Qed.

Definition test_vararray := "// Code generated by trunnel. DO NOT EDIT.

package vararray

import ""testing""

func TestVarArrayCorpus(t *testing.T) {
	cases := []struct {
		Data []byte
	}{
		{
			Data: []byte{0x0, 0xf, 0x4e, 0xe2, 0xd3, 0xd0, 0x78, 0x8, 0x75, 0xd6, 0xe1, 0x51, 0x14, 0x55, 0x2e, 0xe2, 0x85, 0xec, 0xd4, 0xa1, 0x78, 0x89, 0x46, 0x51, 0x85, 0xf, 0xe0, 0xb1, 0xd, 0x39, 0xaf, 0x48, 0xa7, 0x9e, 0x75, 0xfb, 0x18, 0xd, 0xf4, 0x4a, 0x2d, 0xb, 0xee, 0xe8, 0x2a, 0xbd, 0x5f, 0xf6, 0x62, 0xa5, 0xc8, 0x6e, 0x4f, 0xf9, 0x12, 0x4, 0x5b, 0x73, 0xc0, 0x41, 0xd3, 0xff},
		},
	}
	for _, c := range cases {
		_, err := ParseVarArray(c.Data)
		if err != nil {
			t.Fatal(err)
		}
	}
}
".

Definition fuzz_vararray := "// Code generated by trunnel. DO NOT EDIT.

// +build gofuzz

package vararray

func FuzzVarArray(data []byte) int {
	_, err := ParseVarArray(data)
	if err != nil {
		return 0
	}
	return 1
}
".

Example harness_vararray : sameHarness src_vararray "vararray" go_vararray test_vararray fuzz_vararray.
Proof. same. Qed.
