(** Comparison of the model with the files of the repository: the sources in
    gen/tests are parsed, generated and printed, and compared with the committed
    Go files (white space aside); parse/testdata is accepted or rejected. *)
From Coq Require Import ZArith String Ascii List Bool.
From Verif Require Import Base Ast InspectModel GoLang GenModel GenPrint GenExamples PegModel PegGrammar.
Import ListNotations.
Open Scope string_scope.
Open Scope list_scope.
Open Scope Z_scope.

Definition parsedSource (src : string) : option (outcome file) := parseString 5000 (textOf src).
Definition accepts (src : string) : bool :=
  match parsedSource src with Some (Ok _) => true | _ => false end.
Definition rejects (src : string) : bool :=
  match parsedSource src with Some (Err _) => true | _ => false end.
Definition generates (src go : string) : bool :=
  match parsedSource src with
  | Some (Ok f) =>
      match showFile simpleCamel (theRes [f]) f with
      | Ok s => String.eqb (strip s) (fromType (strip go))
      | _ => false
      end
  | _ => false
  end.

Definition src_color := "struct color {
    u8 r;
    u8 g;
    u8 b;
}
".
Definition go_color := "// Code generated by trunnel. DO NOT EDIT.

package color

import ""errors""

type Color struct {
	R uint8
	G uint8
	B uint8
}

func (c *Color) Parse(data []byte) ([]byte, error) {
	cur := data
	{
		if len(cur) < 1 {
			return nil, errors.New(""data too short"")
		}
		c.R = cur[0]
		cur = cur[1:]
	}
	{
		if len(cur) < 1 {
			return nil, errors.New(""data too short"")
		}
		c.G = cur[0]
		cur = cur[1:]
	}
	{
		if len(cur) < 1 {
			return nil, errors.New(""data too short"")
		}
		c.B = cur[0]
		cur = cur[1:]
	}
	return cur, nil
}

func ParseColor(data []byte) (*Color, error) {
	c := new(Color)
	_, err := c.Parse(data)
	if err != nil {
		return nil, err
	}
	return c, nil
}
".
Example golden_color : generates src_color go_color = true.
Proof. vm_compute. reflexivity. Qed.

Definition src_constant := "const TEST_DEC = 42;
const TEST_HEX = 0x42;
const TEST_OCT = 042;

struct constants {
    u8 x IN [ TEST_DEC, TEST_HEX, TEST_OCT ];
}
".
Definition go_constant := "// Code generated by trunnel. DO NOT EDIT.

package constant

import ""errors""

type Constants struct {
	X uint8
}

func (c *Constants) Parse(data []byte) ([]byte, error) {
	cur := data
	{
		if len(cur) < 1 {
			return nil, errors.New(""data too short"")
		}
		c.X = cur[0]
		if !(c.X == 42 || c.X == 66 || c.X == 34) {
			return nil, errors.New(""integer constraint violated"")
		}
		cur = cur[1:]
	}
	return cur, nil
}

func ParseConstants(data []byte) (*Constants, error) {
	c := new(Constants)
	_, err := c.Parse(data)
	if err != nil {
		return nil, err
	}
	return c, nil
}
".
Example golden_constant : generates src_constant go_constant = true.
Proof. vm_compute. reflexivity. Qed.

Definition src_constraint := "/** You can put constraints on integers.
 *
 *  You can also put in doxygen comments before structures and fields to make
 *  them documented. */
struct date {
   /** You can use a range for a constraint */
   u16 year IN [ 1970..65535 ];
   /** You can use a list too */
   u8 month IN [ 1, 2, 3, 4, 5, 6, 7, 8, 9, 10, 11, 12 ];
   /** You can combine lists and ranges, even though this is a little silly:
    * we could write this as 1..31 instead. */
   u8 day IN [ 1,2,3..31 ];
}
".
Definition go_constraint := "// Code generated by trunnel. DO NOT EDIT.

package constraint

import (
	""encoding/binary""
	""errors""
)

type Date struct {
	Year  uint16
	Month uint8
	Day   uint8
}

func (d *Date) Parse(data []byte) ([]byte, error) {
	cur := data
	{
		if len(cur) < 2 {
			return nil, errors.New(""data too short"")
		}
		d.Year = binary.BigEndian.Uint16(cur)
		if !(1970 <= d.Year && d.Year <= 65535) {
			return nil, errors.New(""integer constraint violated"")
		}
		cur = cur[2:]
	}
	{
		if len(cur) < 1 {
			return nil, errors.New(""data too short"")
		}
		d.Month = cur[0]
		if !(d.Month == 1 || d.Month == 2 || d.Month == 3 || d.Month == 4 || d.Month == 5 || d.Month == 6 || d.Month == 7 || d.Month == 8 || d.Month == 9 || d.Month == 10 || d.Month == 11 || d.Month == 12) {
			return nil, errors.New(""integer constraint violated"")
		}
		cur = cur[1:]
	}
	{
		if len(cur) < 1 {
			return nil, errors.New(""data too short"")
		}
		d.Day = cur[0]
		if !(d.Day == 1 || d.Day == 2 || (3 <= d.Day && d.Day <= 31)) {
			return nil, errors.New(""integer constraint violated"")
		}
		cur = cur[1:]
	}
	return cur, nil
}

func ParseDate(data []byte) (*Date, error) {
	d := new(Date)
	_, err := d.Parse(data)
	if err != nil {
		return nil, err
	}
	return d, nil
}
".
Example golden_constraint : generates src_constraint go_constraint = true.
Proof. vm_compute. reflexivity. Qed.

Definition src_contexts := "struct point {
  u8 x IN [0..254];
  u8 y;
}

/** This holds a boolean */
context flag {
  /** This can hold a 1 or a 0. */
  u8 flagval;
}

context count {
  u8 countval;
}

struct twosize with context flag {
  union u[flag.flagval] {
     0: u32 x IN [0..0x7fffffff];
     1,3: u16 y;
  };
}

struct varsize with context count {
  u32 a;
  u8 msg[count.countval];
}

struct ccomplex with context flag, count {
  struct point p;
  struct twosize tsz;
  struct varsize vsz;
  union u[flag.flagval] with length count.countval {
     0: u8 a[];
     1: u16 b[];
  };
}
".
Definition go_contexts := "// Code generated by trunnel. DO NOT EDIT.

package contexts

import (
	""encoding/binary""
	""errors""
)

type Flag struct {
	Flagval uint8
}

type Count struct {
	Countval uint8
}

type Point struct {
	X uint8
	Y uint8
}

func (p *Point) Parse(data []byte) ([]byte, error) {
	cur := data
	{
		if len(cur) < 1 {
			return nil, errors.New(""data too short"")
		}
		p.X = cur[0]
		if !(0 <= p.X && p.X <= 254) {
			return nil, errors.New(""integer constraint violated"")
		}
		cur = cur[1:]
	}
	{
		if len(cur) < 1 {
			return nil, errors.New(""data too short"")
		}
		p.Y = cur[0]
		cur = cur[1:]
	}
	return cur, nil
}

func ParsePoint(data []byte) (*Point, error) {
	p := new(Point)
	_, err := p.Parse(data)
	if err != nil {
		return nil, err
	}
	return p, nil
}

type Twosize struct {
	X uint32
	Y uint16
}

func (t *Twosize) Parse(data []byte, flag Flag) ([]byte, error) {
	cur := data
	{
		switch {
		case flag.Flagval == 0:
			{
				if len(cur) < 4 {
					return nil, errors.New(""data too short"")
				}
				t.X = binary.BigEndian.Uint32(cur)
				if !(0 <= t.X && t.X <= 2147483647) {
					return nil, errors.New(""integer constraint violated"")
				}
				cur = cur[4:]
			}
		case flag.Flagval == 1 || flag.Flagval == 3:
			{
				if len(cur) < 2 {
					return nil, errors.New(""data too short"")
				}
				t.Y = binary.BigEndian.Uint16(cur)
				cur = cur[2:]
			}
		}
	}
	return cur, nil
}

func ParseTwosize(data []byte, flag Flag) (*Twosize, error) {
	t := new(Twosize)
	_, err := t.Parse(data, flag)
	if err != nil {
		return nil, err
	}
	return t, nil
}

type Varsize struct {
	A   uint32
	Msg []uint8
}

func (v *Varsize) Parse(data []byte, count Count) ([]byte, error) {
	cur := data
	{
		if len(cur) < 4 {
			return nil, errors.New(""data too short"")
		}
		v.A = binary.BigEndian.Uint32(cur)
		cur = cur[4:]
	}
	{
		v.Msg = make([]uint8, int(count.Countval))
		for idx := 0; idx < int(count.Countval); idx++ {
			if len(cur) < 1 {
				return nil, errors.New(""data too short"")
			}
			v.Msg[idx] = cur[0]
			cur = cur[1:]
		}
	}
	return cur, nil
}

func ParseVarsize(data []byte, count Count) (*Varsize, error) {
	v := new(Varsize)
	_, err := v.Parse(data, count)
	if err != nil {
		return nil, err
	}
	return v, nil
}

type Ccomplex struct {
	P   *Point
	Tsz *Twosize
	Vsz *Varsize
	A   []uint8
	B   []uint16
}

func (c *Ccomplex) Parse(data []byte, flag Flag, count Count) ([]byte, error) {
	cur := data
	{
		var err error
		c.P = new(Point)
		cur, err = c.P.Parse(cur)
		if err != nil {
			return nil, err
		}
	}
	{
		var err error
		c.Tsz = new(Twosize)
		cur, err = c.Tsz.Parse(cur, flag)
		if err != nil {
			return nil, err
		}
	}
	{
		var err error
		c.Vsz = new(Varsize)
		cur, err = c.Vsz.Parse(cur, count)
		if err != nil {
			return nil, err
		}
	}
	{
		if len(cur) < int(count.Countval) {
			return nil, errors.New(""data too short"")
		}
		restore := cur[int(count.Countval):]
		cur = cur[:int(count.Countval)]
		switch {
		case flag.Flagval == 0:
			{
				c.A = make([]uint8, 0)
				for len(cur) > 0 {
					var tmp uint8
					if len(cur) < 1 {
						return nil, errors.New(""data too short"")
					}
					tmp = cur[0]
					cur = cur[1:]
					c.A = append(c.A, tmp)
				}
			}
		case flag.Flagval == 1:
			{
				c.B = make([]uint16, 0)
				for len(cur) > 0 {
					var tmp uint16
					if len(cur) < 2 {
						return nil, errors.New(""data too short"")
					}
					tmp = binary.BigEndian.Uint16(cur)
					cur = cur[2:]
					c.B = append(c.B, tmp)
				}
			}
		}
		if len(cur) > 0 {
			return nil, errors.New(""trailing data disallowed"")
		}
		cur = restore
	}
	return cur, nil
}

func ParseCcomplex(data []byte, flag Flag, count Count) (*Ccomplex, error) {
	c := new(Ccomplex)
	_, err := c.Parse(data, flag, count)
	if err != nil {
		return nil, err
	}
	return c, nil
}
".
Example golden_contexts : generates src_contexts go_contexts = true.
Proof. vm_compute. reflexivity. Qed.

Definition src_eos := "struct fourbytes {
   u16 x;
   u16 y;
   eos;
}
".
Definition go_eos := "// Code generated by trunnel. DO NOT EDIT.

package eos

import (
	""encoding/binary""
	""errors""
)

type Fourbytes struct {
	X uint16
	Y uint16
}

func (f *Fourbytes) Parse(data []byte) ([]byte, error) {
	cur := data
	{
		if len(cur) < 2 {
			return nil, errors.New(""data too short"")
		}
		f.X = binary.BigEndian.Uint16(cur)
		cur = cur[2:]
	}
	{
		if len(cur) < 2 {
			return nil, errors.New(""data too short"")
		}
		f.Y = binary.BigEndian.Uint16(cur)
		cur = cur[2:]
	}
	{
		if len(cur) > 0 {
			return nil, errors.New(""trailing data disallowed"")
		}
	}
	return cur, nil
}

func ParseFourbytes(data []byte) (*Fourbytes, error) {
	f := new(Fourbytes)
	_, err := f.Parse(data)
	if err != nil {
		return nil, err
	}
	return f, nil
}
".
Example golden_eos : generates src_eos go_eos = true.
Proof. vm_compute. reflexivity. Qed.

Definition src_fixie := "struct color { u8 r; u8 g; u8 b; }

const NUM_BYTES = 8;

struct fixie_demo {
   u8 bytes[NUM_BYTES];
   char letters[8];
   u16 shortwords[4];
   u32 words[2];
   u64 big_words[2];
   struct color colors[2];
}
".
Definition go_fixie := "// Code generated by trunnel. DO NOT EDIT.

package fixie

import (
	""encoding/binary""
	""errors""
)

type Color struct {
	R uint8
	G uint8
	B uint8
}

func (c *Color) Parse(data []byte) ([]byte, error) {
	cur := data
	{
		if len(cur) < 1 {
			return nil, errors.New(""data too short"")
		}
		c.R = cur[0]
		cur = cur[1:]
	}
	{
		if len(cur) < 1 {
			return nil, errors.New(""data too short"")
		}
		c.G = cur[0]
		cur = cur[1:]
	}
	{
		if len(cur) < 1 {
			return nil, errors.New(""data too short"")
		}
		c.B = cur[0]
		cur = cur[1:]
	}
	return cur, nil
}

func ParseColor(data []byte) (*Color, error) {
	c := new(Color)
	_, err := c.Parse(data)
	if err != nil {
		return nil, err
	}
	return c, nil
}

type FixieDemo struct {
	Bytes      [8]uint8
	Letters    [8]byte
	Shortwords [4]uint16
	Words      [2]uint32
	BigWords   [2]uint64
	Colors     [2]*Color
}

func (f *FixieDemo) Parse(data []byte) ([]byte, error) {
	cur := data
	{
		for idx := 0; idx < 8; idx++ {
			if len(cur) < 1 {
				return nil, errors.New(""data too short"")
			}
			f.Bytes[idx] = cur[0]
			cur = cur[1:]
		}
	}
	{
		for idx := 0; idx < 8; idx++ {
			if len(cur) < 1 {
				return nil, errors.New(""data too short"")
			}
			f.Letters[idx] = cur[0]
			cur = cur[1:]
		}
	}
	{
		for idx := 0; idx < 4; idx++ {
			if len(cur) < 2 {
				return nil, errors.New(""data too short"")
			}
			f.Shortwords[idx] = binary.BigEndian.Uint16(cur)
			cur = cur[2:]
		}
	}
	{
		for idx := 0; idx < 2; idx++ {
			if len(cur) < 4 {
				return nil, errors.New(""data too short"")
			}
			f.Words[idx] = binary.BigEndian.Uint32(cur)
			cur = cur[4:]
		}
	}
	{
		for idx := 0; idx < 2; idx++ {
			if len(cur) < 8 {
				return nil, errors.New(""data too short"")
			}
			f.BigWords[idx] = binary.BigEndian.Uint64(cur)
			cur = cur[8:]
		}
	}
	{
		for idx := 0; idx < 2; idx++ {
			var err error
			f.Colors[idx] = new(Color)
			cur, err = f.Colors[idx].Parse(cur)
			if err != nil {
				return nil, err
			}
		}
	}
	return cur, nil
}

func ParseFixieDemo(data []byte) (*FixieDemo, error) {
	f := new(FixieDemo)
	_, err := f.Parse(data)
	if err != nil {
		return nil, err
	}
	return f, nil
}
".
Example golden_fixie : generates src_fixie go_fixie = true.
Proof. vm_compute. reflexivity. Qed.

Definition src_ints := "struct ints {
    u8 byte;
    u16 word;
    u32 dword;
    u64 qword;
}
".
Definition go_ints := "// Code generated by trunnel. DO NOT EDIT.

package ints

import (
	""encoding/binary""
	""errors""
)

type Ints struct {
	Byte  uint8
	Word  uint16
	Dword uint32
	Qword uint64
}

func (i *Ints) Parse(data []byte) ([]byte, error) {
	cur := data
	{
		if len(cur) < 1 {
			return nil, errors.New(""data too short"")
		}
		i.Byte = cur[0]
		cur = cur[1:]
	}
	{
		if len(cur) < 2 {
			return nil, errors.New(""data too short"")
		}
		i.Word = binary.BigEndian.Uint16(cur)
		cur = cur[2:]
	}
	{
		if len(cur) < 4 {
			return nil, errors.New(""data too short"")
		}
		i.Dword = binary.BigEndian.Uint32(cur)
		cur = cur[4:]
	}
	{
		if len(cur) < 8 {
			return nil, errors.New(""data too short"")
		}
		i.Qword = binary.BigEndian.Uint64(cur)
		cur = cur[8:]
	}
	return cur, nil
}

func ParseInts(data []byte) (*Ints, error) {
	i := new(Ints)
	_, err := i.Parse(data)
	if err != nil {
		return nil, err
	}
	return i, nil
}
".
Example golden_ints : generates src_ints go_ints = true.
Proof. vm_compute. reflexivity. Qed.

Definition src_leftover := "struct leftover {
   u32 head[2];
   u32 mid[..-8];
   u32 tail[2];
};
".
Definition go_leftover := "// Code generated by trunnel. DO NOT EDIT.

package leftover

import (
	""encoding/binary""
	""errors""
)

type Leftover struct {
	Head [2]uint32
	Mid  []uint32
	Tail [2]uint32
}

func (l *Leftover) Parse(data []byte) ([]byte, error) {
	cur := data
	{
		for idx := 0; idx < 2; idx++ {
			if len(cur) < 4 {
				return nil, errors.New(""data too short"")
			}
			l.Head[idx] = binary.BigEndian.Uint32(cur)
			cur = cur[4:]
		}
	}
	{
		if len(cur) < 8 {
			return nil, errors.New(""data too short"")
		}
		restore := cur[len(cur)-8:]
		cur = cur[:len(cur)-8]
		l.Mid = make([]uint32, 0)
		for len(cur) > 0 {
			var tmp uint32
			if len(cur) < 4 {
				return nil, errors.New(""data too short"")
			}
			tmp = binary.BigEndian.Uint32(cur)
			cur = cur[4:]
			l.Mid = append(l.Mid, tmp)
		}
		if len(cur) > 0 {
			return nil, errors.New(""trailing data disallowed"")
		}
		cur = restore
	}
	{
		for idx := 0; idx < 2; idx++ {
			if len(cur) < 4 {
				return nil, errors.New(""data too short"")
			}
			l.Tail[idx] = binary.BigEndian.Uint32(cur)
			cur = cur[4:]
		}
	}
	return cur, nil
}

func ParseLeftover(data []byte) (*Leftover, error) {
	l := new(Leftover)
	_, err := l.Parse(data)
	if err != nil {
		return nil, err
	}
	return l, nil
}
".
Example golden_leftover : generates src_leftover go_leftover = true.
Proof. vm_compute. reflexivity. Qed.

Definition src_nest := "struct point {
    u8 x;
    u8 y;
};

struct rect {
    struct point north_east;
    struct point south_west;
};
".
Definition go_nest := "// Code generated by trunnel. DO NOT EDIT.

package nest

import ""errors""

type Point struct {
	X uint8
	Y uint8
}

func (p *Point) Parse(data []byte) ([]byte, error) {
	cur := data
	{
		if len(cur) < 1 {
			return nil, errors.New(""data too short"")
		}
		p.X = cur[0]
		cur = cur[1:]
	}
	{
		if len(cur) < 1 {
			return nil, errors.New(""data too short"")
		}
		p.Y = cur[0]
		cur = cur[1:]
	}
	return cur, nil
}

func ParsePoint(data []byte) (*Point, error) {
	p := new(Point)
	_, err := p.Parse(data)
	if err != nil {
		return nil, err
	}
	return p, nil
}

type Rect struct {
	NorthEast *Point
	SouthWest *Point
}

func (r *Rect) Parse(data []byte) ([]byte, error) {
	cur := data
	{
		var err error
		r.NorthEast = new(Point)
		cur, err = r.NorthEast.Parse(cur)
		if err != nil {
			return nil, err
		}
	}
	{
		var err error
		r.SouthWest = new(Point)
		cur, err = r.SouthWest.Parse(cur)
		if err != nil {
			return nil, err
		}
	}
	return cur, nil
}

func ParseRect(data []byte) (*Rect, error) {
	r := new(Rect)
	_, err := r.Parse(data)
	if err != nil {
		return nil, err
	}
	return r, nil
}
".
Example golden_nest : generates src_nest go_nest = true.
Proof. vm_compute. reflexivity. Qed.

Definition src_nulterm := "struct nul_term {
    u32 x;
    nulterm s;
    u8 y;
}
".
Definition go_nulterm := "// Code generated by trunnel. DO NOT EDIT.

package nulterm

import (
	""bytes""
	""encoding/binary""
	""errors""
)

type NulTerm struct {
	X uint32
	S string
	Y uint8
}

func (n *NulTerm) Parse(data []byte) ([]byte, error) {
	cur := data
	{
		if len(cur) < 4 {
			return nil, errors.New(""data too short"")
		}
		n.X = binary.BigEndian.Uint32(cur)
		cur = cur[4:]
	}
	{
		i := bytes.IndexByte(cur, 0)
		if i < 0 {
			return nil, errors.New(""could not parse nul-term string"")
		}
		n.S, cur = string(cur[:i]), cur[i+1:]
	}
	{
		if len(cur) < 1 {
			return nil, errors.New(""data too short"")
		}
		n.Y = cur[0]
		cur = cur[1:]
	}
	return cur, nil
}

func ParseNulTerm(data []byte) (*NulTerm, error) {
	n := new(NulTerm)
	_, err := n.Parse(data)
	if err != nil {
		return nil, err
	}
	return n, nil
}
".
Example golden_nulterm : generates src_nulterm go_nulterm = true.
Proof. vm_compute. reflexivity. Qed.

Definition src_pos := "struct haspos {
    nulterm s1;
    /** Position right after the first NUL. */
    @ptr pos1;
    nulterm s2;
    @ptr pos2;
    u32 x;
}
".
Definition go_pos := "// Code generated by trunnel. DO NOT EDIT.

package pos

import (
	""bytes""
	""encoding/binary""
	""errors""
)

type Haspos struct {
	S1   string
	Pos1 int
	S2   string
	Pos2 int
	X    uint32
}

func (h *Haspos) Parse(data []byte) ([]byte, error) {
	cur := data
	{
		i := bytes.IndexByte(cur, 0)
		if i < 0 {
			return nil, errors.New(""could not parse nul-term string"")
		}
		h.S1, cur = string(cur[:i]), cur[i+1:]
	}
	{
		h.Pos1 = len(data) - len(cur)
	}
	{
		i := bytes.IndexByte(cur, 0)
		if i < 0 {
			return nil, errors.New(""could not parse nul-term string"")
		}
		h.S2, cur = string(cur[:i]), cur[i+1:]
	}
	{
		h.Pos2 = len(data) - len(cur)
	}
	{
		if len(cur) < 4 {
			return nil, errors.New(""data too short"")
		}
		h.X = binary.BigEndian.Uint32(cur)
		cur = cur[4:]
	}
	return cur, nil
}

func ParseHaspos(data []byte) (*Haspos, error) {
	h := new(Haspos)
	_, err := h.Parse(data)
	if err != nil {
		return nil, err
	}
	return h, nil
}
".
Example golden_pos : generates src_pos go_pos = true.
Proof. vm_compute. reflexivity. Qed.

Definition src_rem := "struct rem {
    u32 head;
    u8 tail[];
};
".
Definition go_rem := "// Code generated by trunnel. DO NOT EDIT.

package rem

import (
	""encoding/binary""
	""errors""
)

type Rem struct {
	Head uint32
	Tail []uint8
}

func (r *Rem) Parse(data []byte) ([]byte, error) {
	cur := data
	{
		if len(cur) < 4 {
			return nil, errors.New(""data too short"")
		}
		r.Head = binary.BigEndian.Uint32(cur)
		cur = cur[4:]
	}
	{
		r.Tail = make([]uint8, 0)
		for len(cur) > 0 {
			var tmp uint8
			if len(cur) < 1 {
				return nil, errors.New(""data too short"")
			}
			tmp = cur[0]
			cur = cur[1:]
			r.Tail = append(r.Tail, tmp)
		}
	}
	return cur, nil
}

func ParseRem(data []byte) (*Rem, error) {
	r := new(Rem)
	_, err := r.Parse(data)
	if err != nil {
		return nil, err
	}
	return r, nil
}
".
Example golden_rem : generates src_rem go_rem = true.
Proof. vm_compute. reflexivity. Qed.

Definition src_unionbasic := "const T_DATE = 2;
const T_INTEGER = 3;
const T_INTARRAY = 4;
const T_VARARRAY = 5;
const T_STRING = 6;

struct date {
    u16 year;
    u8 month;
    u8 day;
};

struct basic {
   u8 tag IN [ T_DATE, T_INTEGER, T_INTARRAY, T_VARARRAY, T_STRING ];
   union value[tag] {
    T_DATE : struct date d;
    T_INTEGER : u32 num;
    T_INTARRAY : u8 eightbytes[8];
    T_STRING : nulterm string;
   };
};
".
Definition go_unionbasic := "// Code generated by trunnel. DO NOT EDIT.

package unionbasic

import (
	""bytes""
	""encoding/binary""
	""errors""
)

type Date struct {
	Year  uint16
	Month uint8
	Day   uint8
}

func (d *Date) Parse(data []byte) ([]byte, error) {
	cur := data
	{
		if len(cur) < 2 {
			return nil, errors.New(""data too short"")
		}
		d.Year = binary.BigEndian.Uint16(cur)
		cur = cur[2:]
	}
	{
		if len(cur) < 1 {
			return nil, errors.New(""data too short"")
		}
		d.Month = cur[0]
		cur = cur[1:]
	}
	{
		if len(cur) < 1 {
			return nil, errors.New(""data too short"")
		}
		d.Day = cur[0]
		cur = cur[1:]
	}
	return cur, nil
}

func ParseDate(data []byte) (*Date, error) {
	d := new(Date)
	_, err := d.Parse(data)
	if err != nil {
		return nil, err
	}
	return d, nil
}

type Basic struct {
	Tag        uint8
	D          *Date
	Num        uint32
	Eightbytes [8]uint8
	String     string
}

func (b *Basic) Parse(data []byte) ([]byte, error) {
	cur := data
	{
		if len(cur) < 1 {
			return nil, errors.New(""data too short"")
		}
		b.Tag = cur[0]
		if !(b.Tag == 2 || b.Tag == 3 || b.Tag == 4 || b.Tag == 5 || b.Tag == 6) {
			return nil, errors.New(""integer constraint violated"")
		}
		cur = cur[1:]
	}
	{
		switch {
		case b.Tag == 2:
			{
				var err error
				b.D = new(Date)
				cur, err = b.D.Parse(cur)
				if err != nil {
					return nil, err
				}
			}
		case b.Tag == 3:
			{
				if len(cur) < 4 {
					return nil, errors.New(""data too short"")
				}
				b.Num = binary.BigEndian.Uint32(cur)
				cur = cur[4:]
			}
		case b.Tag == 4:
			{
				for idx := 0; idx < 8; idx++ {
					if len(cur) < 1 {
						return nil, errors.New(""data too short"")
					}
					b.Eightbytes[idx] = cur[0]
					cur = cur[1:]
				}
			}
		case b.Tag == 6:
			{
				i := bytes.IndexByte(cur, 0)
				if i < 0 {
					return nil, errors.New(""could not parse nul-term string"")
				}
				b.String, cur = string(cur[:i]), cur[i+1:]
			}
		}
	}
	return cur, nil
}

func ParseBasic(data []byte) (*Basic, error) {
	b := new(Basic)
	_, err := b.Parse(data)
	if err != nil {
		return nil, err
	}
	return b, nil
}
".
Example golden_unionbasic : generates src_unionbasic go_unionbasic = true.
Proof. vm_compute. reflexivity. Qed.

Definition src_unioncmds := "struct union_cmds {
    u8 tag;
    union u[tag] {
        1:
            ; // empty case
        2:
            fail;
        default:
            u32 x[2];
    };
    u32 y;
}
".
Definition go_unioncmds := "// Code generated by trunnel. DO NOT EDIT.

package unioncmds

import (
	""encoding/binary""
	""errors""
)

type UnionCmds struct {
	Tag uint8
	X   [2]uint32
	Y   uint32
}

func (u *UnionCmds) Parse(data []byte) ([]byte, error) {
	cur := data
	{
		if len(cur) < 1 {
			return nil, errors.New(""data too short"")
		}
		u.Tag = cur[0]
		cur = cur[1:]
	}
	{
		switch {
		case u.Tag == 1:
		case u.Tag == 2:
			{
				return nil, errors.New(""disallowed case"")
			}
		default:
			{
				for idx := 0; idx < 2; idx++ {
					if len(cur) < 4 {
						return nil, errors.New(""data too short"")
					}
					u.X[idx] = binary.BigEndian.Uint32(cur)
					cur = cur[4:]
				}
			}
		}
	}
	{
		if len(cur) < 4 {
			return nil, errors.New(""data too short"")
		}
		u.Y = binary.BigEndian.Uint32(cur)
		cur = cur[4:]
	}
	return cur, nil
}

func ParseUnionCmds(data []byte) (*UnionCmds, error) {
	u := new(UnionCmds)
	_, err := u.Parse(data)
	if err != nil {
		return nil, err
	}
	return u, nil
}
".
Example golden_unioncmds : generates src_unioncmds go_unioncmds = true.
Proof. vm_compute. reflexivity. Qed.

Definition src_unionlen := "struct union_with_len {
    u16 tag;
    u16 union_len;

    union u[tag] with length union_len {
        1:
            u8 r;
            u8 g;
            u8 b;
        2:
            u16 year;
            u8 month;
            u8 day;
            ...;
        default:
            u8 unparseable[];
  };

  u16 right_after_the_union;
};
".
Definition go_unionlen := "// Code generated by trunnel. DO NOT EDIT.

package unionlen

import (
	""encoding/binary""
	""errors""
)

type UnionWithLen struct {
	Tag                uint16
	UnionLen           uint16
	R                  uint8
	G                  uint8
	B                  uint8
	Year               uint16
	Month              uint8
	Day                uint8
	Unparseable        []uint8
	RightAfterTheUnion uint16
}

func (u *UnionWithLen) Parse(data []byte) ([]byte, error) {
	cur := data
	{
		if len(cur) < 2 {
			return nil, errors.New(""data too short"")
		}
		u.Tag = binary.BigEndian.Uint16(cur)
		cur = cur[2:]
	}
	{
		if len(cur) < 2 {
			return nil, errors.New(""data too short"")
		}
		u.UnionLen = binary.BigEndian.Uint16(cur)
		cur = cur[2:]
	}
	{
		if len(cur) < int(u.UnionLen) {
			return nil, errors.New(""data too short"")
		}
		restore := cur[int(u.UnionLen):]
		cur = cur[:int(u.UnionLen)]
		switch {
		case u.Tag == 1:
			{
				if len(cur) < 1 {
					return nil, errors.New(""data too short"")
				}
				u.R = cur[0]
				cur = cur[1:]
			}
			{
				if len(cur) < 1 {
					return nil, errors.New(""data too short"")
				}
				u.G = cur[0]
				cur = cur[1:]
			}
			{
				if len(cur) < 1 {
					return nil, errors.New(""data too short"")
				}
				u.B = cur[0]
				cur = cur[1:]
			}
		case u.Tag == 2:
			{
				if len(cur) < 2 {
					return nil, errors.New(""data too short"")
				}
				u.Year = binary.BigEndian.Uint16(cur)
				cur = cur[2:]
			}
			{
				if len(cur) < 1 {
					return nil, errors.New(""data too short"")
				}
				u.Month = cur[0]
				cur = cur[1:]
			}
			{
				if len(cur) < 1 {
					return nil, errors.New(""data too short"")
				}
				u.Day = cur[0]
				cur = cur[1:]
			}
			{
				cur = []byte{}
			}
		default:
			{
				u.Unparseable = make([]uint8, 0)
				for len(cur) > 0 {
					var tmp uint8
					if len(cur) < 1 {
						return nil, errors.New(""data too short"")
					}
					tmp = cur[0]
					cur = cur[1:]
					u.Unparseable = append(u.Unparseable, tmp)
				}
			}
		}
		if len(cur) > 0 {
			return nil, errors.New(""trailing data disallowed"")
		}
		cur = restore
	}
	{
		if len(cur) < 2 {
			return nil, errors.New(""data too short"")
		}
		u.RightAfterTheUnion = binary.BigEndian.Uint16(cur)
		cur = cur[2:]
	}
	return cur, nil
}

func ParseUnionWithLen(data []byte) (*UnionWithLen, error) {
	u := new(UnionWithLen)
	_, err := u.Parse(data)
	if err != nil {
		return nil, err
	}
	return u, nil
}
".
Example golden_unionlen : generates src_unionlen go_unionlen = true.
Proof. vm_compute. reflexivity. Qed.

Definition src_unionlo := "struct unlo {
   u8 tag;
   union u[tag] with length ..-8 {
     1: u8 x;
     2: u8 y[];
     4: u8 byte; u16 z[];
   };
   u8 leftoverlen;
   u8 leftovers[leftoverlen];
};
".
Definition go_unionlo := "// Code generated by trunnel. DO NOT EDIT.

package unionlo

import (
	""encoding/binary""
	""errors""
)

type Unlo struct {
	Tag         uint8
	X           uint8
	Y           []uint8
	Byte        uint8
	Z           []uint16
	Leftoverlen uint8
	Leftovers   []uint8
}

func (u *Unlo) Parse(data []byte) ([]byte, error) {
	cur := data
	{
		if len(cur) < 1 {
			return nil, errors.New(""data too short"")
		}
		u.Tag = cur[0]
		cur = cur[1:]
	}
	{
		if len(cur) < 8 {
			return nil, errors.New(""data too short"")
		}
		restore := cur[len(cur)-8:]
		cur = cur[:len(cur)-8]
		switch {
		case u.Tag == 1:
			{
				if len(cur) < 1 {
					return nil, errors.New(""data too short"")
				}
				u.X = cur[0]
				cur = cur[1:]
			}
		case u.Tag == 2:
			{
				u.Y = make([]uint8, 0)
				for len(cur) > 0 {
					var tmp uint8
					if len(cur) < 1 {
						return nil, errors.New(""data too short"")
					}
					tmp = cur[0]
					cur = cur[1:]
					u.Y = append(u.Y, tmp)
				}
			}
		case u.Tag == 4:
			{
				if len(cur) < 1 {
					return nil, errors.New(""data too short"")
				}
				u.Byte = cur[0]
				cur = cur[1:]
			}
			{
				u.Z = make([]uint16, 0)
				for len(cur) > 0 {
					var tmp uint16
					if len(cur) < 2 {
						return nil, errors.New(""data too short"")
					}
					tmp = binary.BigEndian.Uint16(cur)
					cur = cur[2:]
					u.Z = append(u.Z, tmp)
				}
			}
		}
		if len(cur) > 0 {
			return nil, errors.New(""trailing data disallowed"")
		}
		cur = restore
	}
	{
		if len(cur) < 1 {
			return nil, errors.New(""data too short"")
		}
		u.Leftoverlen = cur[0]
		cur = cur[1:]
	}
	{
		u.Leftovers = make([]uint8, int(u.Leftoverlen))
		for idx := 0; idx < int(u.Leftoverlen); idx++ {
			if len(cur) < 1 {
				return nil, errors.New(""data too short"")
			}
			u.Leftovers[idx] = cur[0]
			cur = cur[1:]
		}
	}
	return cur, nil
}

func ParseUnlo(data []byte) (*Unlo, error) {
	u := new(Unlo)
	_, err := u.Parse(data)
	if err != nil {
		return nil, err
	}
	return u, nil
}
".
Example golden_unionlo : generates src_unionlo go_unionlo = true.
Proof. vm_compute. reflexivity. Qed.

Definition src_vararray := "struct var_array {
    u16 n_words;
    u32 words[n_words];
};
".
Definition go_vararray := "// Code generated by trunnel. DO NOT EDIT.

package vararray

import (
	""encoding/binary""
	""errors""
)

type VarArray struct {
	NWords uint16
	Words  []uint32
}

func (v *VarArray) Parse(data []byte) ([]byte, error) {
	cur := data
	{
		if len(cur) < 2 {
			return nil, errors.New(""data too short"")
		}
		v.NWords = binary.BigEndian.Uint16(cur)
		cur = cur[2:]
	}
	{
		v.Words = make([]uint32, int(v.NWords))
		for idx := 0; idx < int(v.NWords); idx++ {
			if len(cur) < 4 {
				return nil, errors.New(""data too short"")
			}
			v.Words[idx] = binary.BigEndian.Uint32(cur)
			cur = cur[4:]
		}
	}
	return cur, nil
}

func ParseVarArray(data []byte) (*VarArray, error) {
	v := new(VarArray)
	_, err := v.Parse(data)
	if err != nil {
		return nil, err
	}
	return v, nil
}
".
Example golden_vararray : generates src_vararray go_vararray = true.
Proof. vm_compute. reflexivity. Qed.

Example accepts_example : accepts "const N_ELEMENTS = 100;
const U8_MAX = 0xff;

extern struct message;

struct rgb {
   u8 r;
   u8 g;
   u8 b;
};

const MAX_LEN = 16384;

struct int_constraints {
	u8 version_num IN [ 4, 5, 6 ];
	u16 length IN [ 0..16384 ];
	u16 length2 IN [ 0..MAX_LEN ];
	u8 version_num2 IN [ 1, 2, 4..6, 9..128 ];
};

struct fixed_length_arrays {
    u8 ipv6_addr[16];
    u32 elements[N_ELEMENTS];
    struct rgb colors[2];
    char hostname[0x40];
};

struct encrypted {
   u8 salt[16];
   u8 message[..-32];
   u8 mac[32];
}

struct var_length_array {
  u16 length;
  u8 bytes[length];
  u64 bignums[length];
}

struct has_union {
	u8 tag;
	union addr[tag] {
		4 : u32 ipv4_addr;
		5 : ;
		6 : u8 ipv6_addr[16];
		0xf0,0xf1 : u8 hostname_len;
				char hostname[hostname_len];
		0xF2 .. 0xFF : struct extension ext;
		default : fail;
	};
}

struct fourbytes {
   u16 x;
   u16 y;
   eos;
}

struct union_with_length {
    u8 tag;
    u16 length;
    union addr[tag] with length length {
       4 : u32 ipv4_addr;
       6 : u8 ipv6_addr[16];
       7 : ignore;
       0xEE : u32 ipv4_addr;
              ...;
       0xEF : u32 ipv4_addr;
              u8 remainder[];
       0xF0 : char hostname[];
       default: u8 unrecognized[];
    };
}

struct encrypted {
   u8 type;
   union u[type] with length ..-32 {
      1: u8 bytes[];
  2: u8 salt[16];
     u8 other_bytes[];
   };
   u64 data[4];
}

context stream_settings {
   u8 block_mode;
   u8 iv_len;
   u8 block_len;
   u8 mac_len;
}

struct encrypted_record with context stream_settings {
   u8 iv[stream_settings.iv_len];
   union msg[stream_settings.block_mode] {
      0: u16 n_bytes; u8 bytes[n_bytes];
  1: u16 n_blocks; struct block blocks[n_blocks];
   };
   u8 mac[stream_settings.maclen];
}

struct block with context stream_settings {
   u8 body[stream_settings.block_len];
}

struct s {
  nulterm unsigned_header;
  @ptr start_of_signed_material;
  u32 bodylen;
  u8 body[bodylen];
  u64 flags;
  @ptr end_of_signed_material;
  u16 signature_len;
  u8 signature[signature_len];
}
" = true.
Proof. vm_compute. reflexivity. Qed.

Example accepts_tor : accepts "// Imported from trunnel repository with minor modifications (adding semi-colons
// after some unions).

const PAYLOAD_LEN = 509;
const RELAY_PAYLOAD_LEN = 498;

context conn_state {
   u8 wide_circids;
}

struct cell with context conn_state {
   union circ_id[conn_state.wide_circids] {
      0: u16 circ_id16;
      1: u32 circ_id32;
   };
   u8 command;
   u8 body[PAYLOAD_LEN];
}

struct var_cell with context conn_state {
   union circ_id[conn_state.wide_circids] {
      0: u16 circ_id16;
      1: u32 circ_id32;
   };
   u8 command IN [ 7, 128..255 ];
   u16 length;
   u8 body[length];
}

struct versions_cell_body {
   u16 versions[];
}

struct certs_cell_cert {
   u8 cert_type;
   u16 cert_len;
   u8 cert[cert_len];
}

struct certs_cell_body {
   u8 n_certs;
   struct certs_cell_cert certs[n_certs];
}

struct auth_challenge_cell {
   u8 challenge[32];
   u16 n_methods;
   u16 methods[n_methods];
}

struct authenticate_cell {
   u16 auth_type;
   u16 auth_len;
   union authentication[auth_type] with length auth_len {
      1: struct rsa_sha256_tlssecret_auth rsa_auth;
      default: fail;
   };
}

struct rsa_sha256_tlssecret_auth {
   u8 type[8];
   u8 cid[32];
   u8 sid[32];
   u8 slog[32];
   u8 clog[32];
   u8 scert[32];
   u8 tlssecrets[32];
   u8 rand[24];
   u8 sig[];
}

struct encoded_address {
   u8 type;
   u8 len;
   union addr[type] with length len {
      0: u8 hostname[];
      4: u32 ipv4_addr;
      6: u8 ipv6_addr[16];
      default: ignore;
   };
}

struct netinfo_cell {
   u32 timestamp;
   struct encoded_address your_addr;
   u8 n_addrs;
   struct encoded_address my_addrs[n_addrs];
}

struct create2_cell {
   u16 htype;
   u16 hlen;
   union hdata[htype] with length hlen {
      0: struct tap_client_handshake tap;
      2: struct ntor_client_handshake ntor;
      default: fail;
   };
}

struct created2_cell {
  u16 hlen;
  u8 hdata[hlen];
}

struct extend2_cell {
  u8 n_specs;
  struct link_specifier linkspecs[n_specs];
  u8 create2_cell[];
}

const LS_IPV4 = 0x00;
const LS_IPV6 = 0x01;
const LS_LEGACY_ID = 0x02;

struct link_specifier {
  u8 ls_type;
  u8 ls_len;
  union un[ls_type] with length ls_len {
    LS_IPV4: u32 ipv4_addr; u16 ipv4_port;
    LS_IPV6: u8 ipv6_addr[16]; u16 ipv6_port;
    LS_LEGACY_ID: u8 legacy_id[20];
    default: u8 unrecognized[];
  };
}

const TAP_C_HANDSHAKE_LEN = 298;
const TAP_S_HANDSHAKE_LEN = 148;
const LEGACY_ID_LEN = 20;

struct extend_cell {
  u32 addr;
  u16 port;
  u8 onion_skin[TAP_C_HANDSHAKE_LEN];
  u8 node_id[LEGACY_ID_LEN];
}

struct tap_client_handshake {
   u8 pk_part[128];
   u8 symmetric_part[100];
}

struct tap_server_handshake {
   u8 dh_data[128];
   u8 kh[20];
}

struct ntor_client_handshake {
   u8 node_ids[20];
   u32 keyid[32];
   u32 client_pk[32];
}

struct ntor_server_handshake {
   u32 server_pk[32];
   u32 auth[32];
}

struct create_fast_cell {
   u8 key[20];
}

struct created_fast_cell {
   u8 key[20];
   u8 derivative_key_data[20];
}

struct relay_cell_body {
   u8 relay_command;
   u16 recognized;
   u16 stream_id;
   u8 digest[4];
   u16 len IN [ 0..RELAY_PAYLOAD_LEN ];
   u8 data[RELAY_PAYLOAD_LEN];
}

struct begin_cell_body {
   nulterm addrport;
   u32 flags;
}

struct connected_cell {
   u32 ipv4_addr;
   union ext_addr[ipv4_addr] {
     0: ;
     default:
              u8 addrtype IN [6];
              u8 ipv6_addr[16];
   };
   u32 ttl;
}

struct resolved_cell_item {
   struct encoded_address answer;
   u32 ttl;
}

struct resolved_cell {
   struct resolved_cell_item answers[];
}
" = true.
Proof. vm_compute. reflexivity. Qed.

Example accepts_union_var_array : accepts "struct var_array_inside_union {
   u8 a;
   union u[a] {
      0:  u16 n;
          u8 b[n];
   };
}
" = true.
Proof. vm_compute. reflexivity. Qed.

Example rejects_eos_not_at_end : rejects "struct misplaced_eos {
  u8 x;
  eos;
  u8 y;
};
" = true.
Proof. vm_compute. reflexivity. Qed.

Example rejects_inner_struct_semi : rejects "struct inner_struct_with_semi_colon {
  struct inner { u8 a; u32 b; }; x[3];
}
" = true.
Proof. vm_compute. reflexivity. Qed.

Example rejects_missing_member_name : rejects "struct encrypted_record with context stream_settings {
  u16 n_blocks;
  // following problem seen in trunnel manual
  struct block[n_blocks];
}
" = true.
Proof. vm_compute. reflexivity. Qed.

Example rejects_multi_eos : rejects "struct multi_eos {
  u8 x;
  eos;
  eos;
};
" = true.
Proof. vm_compute. reflexivity. Qed.

Example rejects_multi_remainder_arrays : rejects "struct multi_remainder_arrays {
  u8 remaining_bytes[];
  u32 remaining_words[];
};
" = true.
Proof. vm_compute. reflexivity. Qed.

Example rejects_remander_not_at_end : rejects "struct remainder_not_at_end {
  u8 a;
  u8 b[];
  u8 c;
};
" = true.
Proof. vm_compute. reflexivity. Qed.

Example rejects_union_double_semi_ignore : rejects "struct double_semi {
    u8 tag;
    union addr[tag] {
       4 : ignore; ;
    };
}
" = true.
Proof. vm_compute. reflexivity. Qed.

Example rejects_union_double_semi : rejects "struct double_semi {
    u8 tag;
    u16 length;
    union addr[tag] with length length {
       4 : u32 ipv4_addr; ;
    };
}
" = true.
Proof. vm_compute. reflexivity. Qed.

Example rejects_union_ellipsis_after_fail : rejects "struct ellipsis_after_fail {
    u8 tag;
    union addr[tag] {
       4 : fail; ...;
    };
}
" = true.
Proof. vm_compute. reflexivity. Qed.

Example rejects_union_ellipsis_after_ignore : rejects "struct ellipsis_after_ignore {
    u8 tag;
    union addr[tag] {
       4 : ignore; ...;
    };
}
" = true.
Proof. vm_compute. reflexivity. Qed.

Example rejects_union_eos : rejects "struct rem_not_last {
    u8 tag;
    union addr[tag] {
       4 : u8 a; u8 b; eos;
    };
}
" = true.
Proof. vm_compute. reflexivity. Qed.

Example rejects_union_fields_after_fail : rejects "struct field_after_fail {
    u8 tag;
    union addr[tag] {
       4 : fail; u8 b;
    };
}
" = true.
Proof. vm_compute. reflexivity. Qed.

Example rejects_union_fields_after_ignore : rejects "struct field_after_ignore {
    u8 tag;
    union addr[tag] {
       4 : ignore; u8 b;
    };
}
" = true.
Proof. vm_compute. reflexivity. Qed.

Example rejects_union_rem_after_fail : rejects "struct rem_after_fail {
    u8 tag;
    union addr[tag] {
       4 : fail; u8 rem[];
    };
}
" = true.
Proof. vm_compute. reflexivity. Qed.

Example rejects_union_rem_after_ignore : rejects "struct rem_after_ignore {
    u8 tag;
    union addr[tag] {
       4 : ignore; u8 rem[];
    };
}
" = true.
Proof. vm_compute. reflexivity. Qed.

Example rejects_union_rem_not_last : rejects "struct rem_not_last {
    u8 tag;
    union addr[tag] {
       4 : u8 rem[]; u8 bad;
    };
}
" = true.
Proof. vm_compute. reflexivity. Qed.
