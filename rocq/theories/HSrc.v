(** Texts of the quaternion headers, copied byte for byte from /repo (every double quote is doubled, as Coq strings require). *)
From Coq Require Import String.
Local Open Scope string_scope.
(** include/haxx.hpp, all 30 lines *)
Definition hsrc_haxx : string := "/*
 *  This file is a part of HAXX
 *  
 *  Copyright (c) 2017 David Williams-Young
 *  All rights reserved.
 *  
 *  See LICENSE.txt 
 */

#ifndef __INCLUDED_HAXX_HPP
#define __INCLUDED_HAXX_HPP


// HAXX quaternion definition
#include ""haxx/haxx_def.hpp""

// Scalar Operators
#include ""haxx/haxx_scalar_op.hpp""

// Complex Operators
#include ""haxx/haxx_complex_op.hpp""

// Quaternion Operators
#include ""haxx/haxx_quaternion_op.hpp""

// Quaternion Reduction
#include ""haxx/haxx_quaternion_reduction.hpp""


#endif
".
(** include/haxx/haxx_def.hpp, all 406 lines *)
Definition hsrc_def : string := "/*
 *  This file is a part of HAXX
 *  
 *  Copyright (c) 2017 David Williams-Young
 *  All rights reserved.
 *  
 *  See LICENSE.txt 
 */

#ifndef __INCLUDED_HAXX_DEF_HPP
#define __INCLUDED_HAXX_DEF_HPP

#include <haxx_config.hpp>

#include <complex> // Support for complex numbers
#include <string>
#include <sstream>
#include <array>

#include <util/simd.hpp>

// HAXX Namespace
namespace HAXX {

/**
 *  @defgroup quaternion The Quaternion Struct
 *  The templated quaternion struct definition and associated
 *  arithmetic functions for the quaternion algebra.
 *
 *  @{
 */

/**
 * Primary template class quaternion
 *
 */
template <typename _F>
struct quaternion {

  /// Value typedef
  typedef _F value_type;

  /// Complex value typedef
  typedef std::complex<_F> _CF;

  /// \brief Default Constructor.
  /// Constructs a quaternion from real quadruple
  ///
  ///   \f$q = a + bi + cj + dk = (a,b,c,d) \qquad a,b,c,d\in\mathbb{R}\f$
  constexpr quaternion(const _F& a = _F(), const _F& b = _F(), 
    const _F& c = _F(), const _F& d = _F()) :
    _M_real(a), _M_imag_i(b), _M_imag_j(c), _M_imag_k(d) { } 

  /// \brief Complex Constructor.
  /// Constructs a quaternion using Cayley-Dickson construction of
  ///   the complex numbers
  ///
  ///   \f$ q = a + bj = a^R + a^Ii + b^Rj + b^Ik \qquad a,b \in \mathbb{C}\f$
  constexpr quaternion(const _CF& a, const _CF& b = _CF()) :
    _M_real(a.real()), _M_imag_i(a.imag()),
    _M_imag_j(b.real()), _M_imag_k(b.imag()) { }


  /// \brief Real Array Constructor
  /// Constructs a quaternion from a std::array<_F,4>
  constexpr quaternion(const std::array<_F,4>& q) :
    quaternion(q[0],q[1],q[2],q[3]) { };

  /// \brief Complex Array Constructor
  /// Constructs a quaternion from a std::array<_CF,4>
  constexpr quaternion(const std::array<_CF,2>& q) :
    quaternion(q[0],q[1]) { };

  /// Copy Constructor.
  constexpr quaternion(const quaternion&) = default;

  ~quaternion() = default;

  /// Converting Constructor.
  template <typename _G>
    constexpr quaternion(const quaternion<_G>& __q) :
      _M_real(__q.real()), _M_imag_i(__q.imag_i()),
      _M_imag_j(__q.imag_j()), _M_imag_k(__q.imag_k()) { }  






  // Getters for components of the quaternion
 
  /// Returns the real (scalar) part of the quaternion
  constexpr _F real()   const { return _M_real;   }
  /// Returns the imaginary (i) part of the quaternion
  constexpr _F imag_i() const { return _M_imag_i; }
  /// Returns the imaginary (j) part of the quaternion
  constexpr _F imag_j() const { return _M_imag_j; }
  /// Returns the imaginary (k) part of the quaternion
  constexpr _F imag_k() const { return _M_imag_k; }
  /// Returns the imaginary vector {i,j,k} of the quaternion
  constexpr std::array<_F,3> imag() const { return { _M_imag_i,_M_imag_j,_M_imag_k }; }


  // Setters for components of the quaternion

  /// Sets the real (scalar) part of the quaternion
  void real(_F __x)   { _M_real   = __x; }
  /// Sets the imaginary (i) part of the quaternion
  void imag_i(_F __x) { _M_imag_i = __x; }
  /// Sets the imaginary (j) part of the quaternion
  void imag_j(_F __x) { _M_imag_j = __x; }
  /// Sets the imaginary (k) part of the quaternion
  void imag_k(_F __x) { _M_imag_k = __x; }
  /// Sets the imaginary {i,j,k} part of the quaternion
  void imag(const std::array<_F,3>& __x) {
    _M_imag_i = __x[0];
    _M_imag_j = __x[1];
    _M_imag_k = __x[2];
  }

  // Real / Complex Assignment Operators

  /// Assign a scalar to this quaternion number
  quaternion<_F>& operator=(const _F&);

  /// Assign a complex number to this quaternion number
  quaternion<_F>& operator=(const _CF&);





  // Real / Complex Arithmetatic operators

  /// Add a scalar to this quaternion number
  quaternion<_F>& operator+=(const _F&);

  /// Subtract a scalar from this quaternion number
  quaternion<_F>& operator-=(const _F&);

  /// Multiply a scalar by this quaternion number
  quaternion<_F>& operator*=(const _F&);

  /// Divide this quaternion number by a scalar
  quaternion<_F>& operator/=(const _F&);


  /// Add a complex number to this quaternion number
  quaternion<_F>& operator+=(const _CF&);

  /// Subtract a complex number from this quaternion number
  quaternion<_F>& operator-=(const _CF&);

  // Self multiplication by a complex number is ambiguous







  // Quaternion operators


  /// Assign a quaternion number (same type) to this quaternion number
  quaternion& operator=(const quaternion&) = default;

  /// Quaternion conversion assignment
  template <typename _G> quaternion<_F>& operator=(const quaternion<_G>&);

  /// Add a quaternion number to this quaternion number
  template <typename _G> quaternion<_F>& operator+=(const quaternion<_G>&);

  /// Subtract a quaternion number from this quaternion number
  template <typename _G> quaternion<_F>& operator-=(const quaternion<_G>&);

  // Self multiplication by a quaternion number is ambiguous






  constexpr quaternion __rep() const { return *this; }

  private:
    _F _M_real;   /// Real (Scalar) part of the quaternion
    _F _M_imag_i; /// Imaginary (i) part of the quaternion
    _F _M_imag_j; /// Imaginary (j) part of the quaternion
    _F _M_imag_k; /// Imaginary (k) part of the quaternion



}; // struct quaternion

///  Insertion operator for quaternion values.
template<typename _F, typename _CharT, class _Traits>
  std::basic_ostream<_CharT, _Traits>&
  operator<<(std::basic_ostream<_CharT, _Traits>& __os, const quaternion<_F>& __x)
  {
    std::basic_ostringstream<_CharT, _Traits> __s;
    __s.flags(__os.flags());
    __s.imbue(__os.getloc());
    __s.precision(__os.precision());
    __s << '(' << __x.real() << ',' << __x.imag_i() 
        << ',' << __x.imag_j() << ',' << __x.imag_k() << ')';
    return __os << __s.str();
  }

template <typename _F>
std::string to_string(quaternion<_F> &x) {
  std::stringstream ss;
  ss << x;
  return ss.str();
};


/**
 *  @defgoup QOp Quaterion Unary Operations
 *  Unary operations on quaternion numbers
 *  @{
 */

/// Extract real part of a quaternion number
template <typename _F>
  inline _F real(const quaternion<_F> &x) { return x.real(); } 

/// Extract i-imaginary part of a quaternion number
template <typename _F>
  inline _F imag_i(const quaternion<_F> &x) { return x.imag_i(); } 

/// Extract j-imaginary part of a quaternion number
template <typename _F>
  inline _F imag_j(const quaternion<_F> &x) { return x.imag_j(); } 

/// Extract k-imaginary part of a quaternion number
template <typename _F>
  inline _F imag_k(const quaternion<_F> &x) { return x.imag_k(); } 


/* @} */ // QOp

/**
 *  @defgroup QQOp Quaternion - Quaternion Binary Operations
 *  Binary arithmetic operations between quaternion numbers
 *  @{
 */

/// Add two quaternion numbers
template <typename _F>
inline quaternion<_F> operator+(const quaternion<_F>&, const quaternion<_F>&);

/// Subtract two quaternion numbers
template <typename _F>
inline quaternion<_F> operator-(const quaternion<_F>&, const quaternion<_F>&);

/// Multiply two quaternion numbers
template <typename _F>
inline quaternion<_F> operator*(const quaternion<_F>&, const quaternion<_F>&);

/// Negate a quaternion number
template <typename _F>
inline quaternion<_F> operator-(const quaternion<_F>& __x);


/// Check the equality of two quaternions
template <typename _F>
inline bool operator==(const quaternion<_F>&, const quaternion<_F>&);
/// Check the inequality of two quaternions
template <typename _F>
inline bool operator==(const quaternion<_F>&, const quaternion<_F>&);

/* @} */ // QQOp


/**
 *  @defgroup QROp Quaternion - Real Binary Operations
 *  Binary arithmetic operations between quaternion and real numbers
 *  @{
 */

/// Add a real number to a quaternion number
template <typename _F>
inline quaternion<_F> operator+(const quaternion<_F>&, const _F&);

/// Add a real number to a quaternion number
template <typename _F>
inline quaternion<_F> operator+(const _F&, const quaternion<_F>&);

/// Subtract a real number from a quaternion number
template <typename _F>
inline quaternion<_F> operator-(const quaternion<_F>&, const _F&);

/// Subtract a quaternion number from a real number
template <typename _F>
inline quaternion<_F> operator-(const _F&, const quaternion<_F>&);

/// Right multiply a quaternion number by a real number
template <typename _F>
inline quaternion<_F> operator*(const quaternion<_F>&, const _F&);

/// Left multiply a quaternion number by a real number
template <typename _F>
inline quaternion<_F> operator*(const _F&, const quaternion<_F>&);

/// Divide a quaternion number by a real number
template <typename _F>
inline quaternion<_F> operator/(const quaternion<_F>&, const _F&);

/// Divide a real number by a quaternion number
template <typename _F>
inline quaternion<_F> operator*(const _F&, const quaternion<_F>&);

/* @} */ // QROp

/**
 *  @defgroup QCOp Quaternion - Complex Binary Operations
 *  Binary arithmetic operations between quaternion and complex numbers
 *  @{
 */

/// Add a complex number to a quaternion number
template <typename _F>
inline quaternion<_F> operator+(const quaternion<_F>&, const std::complex<_F>&);

/// Add a complex number to a quaternion number
template <typename _F>
inline quaternion<_F> operator+(const std::complex<_F>&, const quaternion<_F>&);

/// Subtract a complex number from a quaternion number
template <typename _F>
inline quaternion<_F> operator-(const quaternion<_F>&, const std::complex<_F>&);

/// Subtract a quaternion number from a complex number
template <typename _F>
inline quaternion<_F> operator-(const std::complex<_F>&, const quaternion<_F>&);

/// Right multiply a quaternion number by a complex number
template <typename _F>
inline quaternion<_F> operator*(const quaternion<_F>&, const std::complex<_F>&);

/// Left multiply a quaternion number by a complex number
template <typename _F>
inline quaternion<_F> operator*(const std::complex<_F>&, const quaternion<_F>&);

/* @} */ // QCOp

/**
 *  @defgroup QAlg Quaternion Algebraic Operations
 *  Defines the algebraic operations for the quaternion numbers
 *  @{
 */

/// Returns the norm of a quaternion number
template <typename _F> inline _F norm(const quaternion<_F>&);

/// Returns the conjugate of a quaternion number
template <typename _F> inline quaternion<_F> conj(const quaternion<_F>&);

/// Returns the inverse of a quaternion number
template <typename _F> inline quaternion<_F>  inv(const quaternion<_F>&);

/// Returns the versor of a quaternion number
template <typename _F> inline quaternion<_F> versor(const quaternion<_F>&);

/// Returns the commutator of two quaternion numbers
template <typename _F> 
  inline quaternion<_F> comm(const quaternion<_F>&, const quaternion<_F>&);

/// Returns the commutator of a quaternion number and a complex number
template <typename _F> 
  inline quaternion<_F> comm(const quaternion<_F>&, const std::complex<_F>&);

/// Returns the commutator of a quaternion number and a complex number
template <typename _F> 
  inline quaternion<_F> comm(const std::complex<_F>&, const quaternion<_F>&);

/// Returns the commutator of a quaternion number and a real number
template <typename _F> 
  inline quaternion<_F> comm(const quaternion<_F>&, const _F&);

/// Returns the commutator of a quaternion number and a real number
template <typename _F> 
  inline quaternion<_F> comm(const _F&, const quaternion<_F>&);

/* @} */ // QAlg

/* @} */ // quaternion



/**
 *  @defgroup MiscFunctions Miscellaneous Function Overloads and Replacements
 *  Various overloads / replacements of standard functions
 *
 *  @{
 */

template <typename _F> inline _F SmartConj( _F& );
/* @} */ // MiscFunctions 

}; // HAXX namespace



#endif
".
(** include/haxx/haxx_scalar_op.hpp, all 271 lines *)
Definition hsrc_scalar : string := "/*
 *  This file is a part of HAXX
 *  
 *  Copyright (c) 2017 David Williams-Young
 *  All rights reserved.
 *  
 *  See LICENSE.txt 
 */

#ifndef __INCLUDED_HAXX_SCALAR_OP_HPP
#define __INCLUDED_HAXX_SCALAR_OP_HPP

#include ""haxx/haxx_def.hpp""

namespace HAXX {

/**
 * Assigns a real number to this quaternion through the natural
 * embedding of the real numbers in the quaternion algebra
 *
 * \f$ p \in \mathbb{R} \mapsto p' \in \mathbb{H} \f$ such that
 * \f$ p' = (p,0,0,0) \f$
 *
 */
template <typename _F>
quaternion<_F>& quaternion<_F>::operator=(const _F& __t) {

  _M_real   = __t;
  _M_imag_i = _F();
  _M_imag_j = _F();
  _M_imag_k = _F();

  return *this;

};



/**
 * Adds a real number to this quaternion in place through the
 * natural embedding of the real numbers in the quaternion
 * algebra.
 *
 * \f$ p \in \mathbb{H}, a \in \mathbb{R} \qquad p = p + a' \f$
 * where \f$a' = (a, 0,0,0) \in \mathbb{H} \f$
 *
 */
template <typename _F>
quaternion<_F>& quaternion<_F>::operator+=(const _F& __t) {

  _M_real += __t;
  return *this;

};

/**
 * Subtracts a real number from this quaternion in place through the
 * natural embedding of the real numbers in the quaternion
 * algebra.
 *
 * \f$ p \in \mathbb{H}, a \in \mathbb{R} \qquad p = p - a' \f$
 * where \f$a' = (a,0,0,0) \in \mathbb{H} \f$
 *
 */
template <typename _F>
quaternion<_F>& quaternion<_F>::operator-=(const _F& __t) {

  _M_real -= __t;
  return *this;

};

/**
 * Multiplies this quaternion by a scalar in place through the
 * natural embedding of the real numbers in the quaternion
 * algebra.
 *
 * \f$ p \in \mathbb{H}, a \in \mathbb{R} \qquad p = pa' =(ap^R,ap^I,ap^J,ap^K)\f$
 * where \f$a' = (a,0,0,0) \in \mathbb{H} \f$
 *
 */
template <typename _F>
quaternion<_F>& quaternion<_F>::operator*=(const _F& __t) {

  _M_real   *= __t;
  _M_imag_i *= __t;
  _M_imag_j *= __t;
  _M_imag_k *= __t;

  return *this;

};

/**
 * Divides this quaternion by a scalar in place through the
 * natural embedding of the real numbers in the quaternion
 * algebra.
 *
 * \f$ p \in \mathbb{H}, a \in \mathbb{R} \qquad 
 *  p = p(a')^{-1} =(p^R/a,p^I/a,p^J/a,p^K/a)\f$
 * where \f$a' = (a,0,0,0) \in \mathbb{H} \f$
 *
 */
template <typename _F>
quaternion<_F>& quaternion<_F>::operator/=(const _F& __t) {

  _M_real   /= __t;
  _M_imag_i /= __t;
  _M_imag_j /= __t;
  _M_imag_k /= __t;

  return *this;

};





/**
 *  Adds a real number and a quaternion number to return a 
 *  quaternion number through the natural embedding of the real
 *  numbers in the quaternion algebra.
 *
 *  \f$r = p + a' \qquad 
 *    r,p\in\mathbb{H}, \quad a\in\mathbb{R}, \quad 
 *    a' = (a,0,0,0) \in\mathbb{H}\f$
 *
 */
template <typename _F>
inline quaternion<_F> operator+(const quaternion<_F>& __x, const _F& __y) {

  quaternion<_F> __r = __x;
  __r += __y;
  return __r;

};

/**
 *  Adds a real number and a quaternion number to return a 
 *  quaternion number through the natural embedding of the real
 *  numbers in the quaternion algebra.
 *
 *  \f$r = a' + p \qquad 
 *    r,p\in\mathbb{H}, \quad a\in\mathbb{R}, \quad 
 *    a' = (a,0,0,0) \in\mathbb{H}\f$
 *
 */
template <typename _F>
inline quaternion<_F> operator+(const _F& __x, const quaternion<_F>& __y) {

  quaternion<_F> __r = __y;
  __r += __x;
  return __r;

};

/**
 *  Subtract a real number from a quaternion number to return a 
 *  quaternion number through the natural embedding of the real
 *  numbers in the quaternion algebra.
 *
 *  \f$r = p - a' \qquad 
 *    r,p\in\mathbb{H}, \quad a\in\mathbb{R}, \quad 
 *    a' = (a,0,0,0) \in\mathbb{H}\f$
 *
 */
template <typename _F>
inline quaternion<_F> operator-(const quaternion<_F>& __x, const _F& __y) {

  quaternion<_F> __r = __x;
  __r -= __y;
  return __r;

};

/**
 *  Subtract a quaternion number from a real number to return a 
 *  quaternion number through the natural embedding of the real
 *  numbers in the quaternion algebra.
 *
 *  \f$r = a' - p \qquad 
 *    r,p\in\mathbb{H}, \quad a\in\mathbb{R}, \quad 
 *    a' = (a,0,0,0) \in\mathbb{H}\f$
 *
 */
template <typename _F>
inline quaternion<_F> operator-(const _F& __x, const quaternion<_F>& __y) {

  quaternion<_F> __r = -__y;
  __r += __x;
  return __r;

};


/**
 * Multiplies a quaternion by a scalar through the
 * natural embedding of the real numbers in the quaternion
 * algebra.
 *
 * \f$ r,p \in \mathbb{H}, a \in \mathbb{R} \qquad r = pa' =(ap^R,ap^I,ap^J,ap^K)\f$
 * where \f$a' = (a,0,0,0) \in \mathbb{H} \f$
 *
 */
template <typename _F>
inline quaternion<_F> operator*(const quaternion<_F>& __x, const _F& __y) {

  quaternion<_F> __r = __x;
  __r *= __y;
  return __r;

};

/**
 * Multiplies a quaternion by a scalar through the
 * natural embedding of the real numbers in the quaternion
 * algebra.
 *
 * \f$ p,r \in \mathbb{H}, a \in \mathbb{R} \qquad r = a'p =(ap^R,ap^I,ap^J,ap^K)\f$
 * where \f$a' = (a,0,0,0) \in \mathbb{H} \f$
 *
 */
template <typename _F>
inline quaternion<_F> operator*(const _F& __x, const quaternion<_F>& __y) {

  quaternion<_F> __r = __y;
  __r *= __x;
  return __r;

};

/**
 * Divides a quaternion by a scalar through the
 * natural embedding of the real numbers in the quaternion
 * algebra.
 *
 * \f$ p,r \in \mathbb{H}, a \in \mathbb{R} \qquad r = p(a')^{-1} =(p^R/a,p^I/a,p^J/a,p^K/a)\f$
 * where \f$a' = (a,0,0,0) \in \mathbb{H} \f$
 *
 */
template <typename _F>
inline quaternion<_F> operator/(const quaternion<_F>& __x, const _F& __y) {

  quaternion<_F> __r = __x;
  __r /= __y;
  return __r;

};

/**
 * Divides a scalar by a quaternion through the
 * natural embedding of the real numbers in the quaternion
 * algebra.
 *
 * \f$ p,r \in \mathbb{H}, a \in \mathbb{R} \qquad r = a'p^{-1} \f$
 * where \f$a' = (a,0,0,0) \in \mathbb{H} \f$
 *
 */
template <typename _F>
inline quaternion<_F> operator/(const _F& __x, const quaternion<_F>& __y) {

  quaternion<_F> __r = inv(__y);
  __r *= __x;
  return __r;

};

}; // HAXX namespace

#endif
".
(** include/haxx/haxx_complex_op.hpp, all 214 lines *)
Definition hsrc_complex : string := "/*
 *  This file is a part of HAXX
 *  
 *  Copyright (c) 2017 David Williams-Young
 *  All rights reserved.
 *  
 *  See LICENSE.txt 
 */

#ifndef __INCLUDED_HAXX_COMPLEX_OP_HPP
#define __INCLUDED_HAXX_COMPLEX_OP_HPP

#include ""haxx/haxx_def.hpp""

namespace HAXX {

/**
 * Assigns a complex number to this quaternion through the natural
 * embedding of the complex numbers in the quaternion algebra
 *
 * \f$ p \in \mathbb{C} \mapsto p' \in \mathbb{H} \f$ such that
 * \f$ p' = (p^R,p^I,0,0) \f$
 *
 */
template <typename _F>
quaternion<_F>& quaternion<_F>::operator=(const _CF& __ct) {

  _M_real   = __ct.real();
  _M_imag_i = __ct.imag();
  _M_imag_j = _F();
  _M_imag_k = _F();

  return *this;

};

/**
 * Adds a complex number to this quaternion in place through the
 * natural embedding of the complex numbers in the quaternion
 * algebra.
 *
 * \f$ p \in \mathbb{H}, z \in \mathbb{C} \qquad p = p + z' \f$
 * where \f$z' = (z^R, z^I,0,0) \in \mathbb{H} \f$
 *
 */
template <typename _F>
quaternion<_F>& quaternion<_F>::operator+=(const _CF& __t) {

  _M_real   += __t.real();
  _M_imag_i += __t.imag();
  return *this;

};


/**
 * Subtracts a complex number from this quaternion in place through the
 * natural embedding of the complex numbers in the quaternion
 * algebra.
 *
 * \f$ p \in \mathbb{H}, z \in \mathbb{C} \qquad p = p - z' \f$
 * where \f$z' = (z^R, z^I,0,0) \in \mathbb{H} \f$
 *
 */
template <typename _F>
quaternion<_F>& quaternion<_F>::operator-=(const _CF& __t) {

  _M_real   -= __t.real();
  _M_imag_i -= __t.imag();
  return *this;

};




/**
 *  Adds a complex number and a quaternion number to return a 
 *  quaternion number through the natural embedding of the complex
 *  numbers in the quaternion algebra.
 *
 *  \f$r = p + z' \qquad 
 *    r,p\in\mathbb{H}, \quad z\in\mathbb{C}, \quad 
 *    z' = (z^R,z^I,0,0) \in\mathbb{H}\f$
 *
 */
template <typename _F>
inline quaternion<_F> operator+(const quaternion<_F>& __x, 
  const std::complex<_F>& __y) {

  quaternion<_F> __r = __x;
  __r += __y;
  return __r;

};

/**
 *  Adds a complex number and a quaternion number to return a 
 *  quaternion number through the natural embedding of the complex
 *  numbers in the quaternion algebra.
 *
 *  \f$r = p + z' \qquad 
 *    r,p\in\mathbb{H}, \quad z\in\mathbb{C}, \quad 
 *    z' = (z^R,z^I,0,0) \in\mathbb{H}\f$
 *
 */
template <typename _F>
inline quaternion<_F> operator+(const std::complex<_F>& __x, 
  const quaternion<_F>& __y) {

  quaternion<_F> __r = __y;
  __r += __x;
  return __r;

};

/**
 *  Subtracts a complex number from a quaternion number to return a 
 *  quaternion number through the natural embedding of the complex
 *  numbers in the quaternion algebra.
 *
 *  \f$r = p - z' \qquad 
 *    r,p\in\mathbb{H}, \quad z\in\mathbb{C}, \quad 
 *    z' = (z^R,z^I,0,0) \in\mathbb{H}\f$
 *
 */
template <typename _F>
inline quaternion<_F> operator-(const quaternion<_F>& __x, 
  const std::complex<_F>& __y) {

  quaternion<_F> __r = __x;
  __r -= __y;
  return __r;

};

/**
 *  Subtracts a quaternion number from a complex number to return a 
 *  quaternion number through the natural embedding of the complex
 *  numbers in the quaternion algebra.
 *
 *  \f$r = z' - p \qquad 
 *    r,p\in\mathbb{H}, \quad z\in\mathbb{C}, \quad 
 *    z' = (z^R,z^I,0,0) \in\mathbb{H}\f$
 *
 */
template <typename _F>
inline quaternion<_F> operator-(const std::complex<_F>& __x, 
  const quaternion<_F>& __y) {

  quaternion<_F> __r = -__y;
  __r += __x;
  return __r;

};



/**
 *  Right multiplies a quaternion number by a complex number to return a 
 *  quaternion number through the natural embedding of the complex
 *  numbers in the quaternion algebra. 
 *
 *  \f$r = pz' \qquad 
 *    r,p\in\mathbb{H}, \quad z\in\mathbb{C}, \quad 
 *    z' = (z^R,z^I,0,0) \in\mathbb{H}\f$
 *
 */
template <typename _F>
inline quaternion<_F> operator*(const quaternion<_F>& __x,
  const std::complex<_F>& __y) {

  quaternion<_F> __r;

  // This is a really naive algorithm
  __r.real(__x.real()   * __y.real()   - __x.imag_i() * __y.imag());
  __r.imag_i(__x.real()   * __y.imag() + __x.imag_i() * __y.real());
  __r.imag_j(__x.imag_j() * __y.real() + __x.imag_k() * __y.imag());
  __r.imag_k(__x.imag_k() * __y.real() - __x.imag_j() * __y.imag());
  
  return __r;

};

/**
 *  Left multiplies a quaternion number by a complex number to return a 
 *  quaternion number through the natural embedding of the complex
 *  numbers in the quaternion algebra. 
 *
 *  \f$r = pz' \qquad 
 *    r,p\in\mathbb{H}, \quad z\in\mathbb{C}, \quad 
 *    z' = (z^R,z^I,0,0) \in\mathbb{H}\f$
 *
 */
template <typename _F>
inline quaternion<_F> operator*(const std::complex<_F>& __x,
  const quaternion<_F>& __y) {

  quaternion<_F> __r;

  // This is a really naive algorithm
  __r.real(__x.real()   * __y.real()   - __x.imag() * __y.imag_i());
  __r.imag_i(__x.real() * __y.imag_i() + __x.imag() * __y.real());
  __r.imag_j(__x.real() * __y.imag_j() - __x.imag() * __y.imag_k());
  __r.imag_k(__x.real() * __y.imag_k() + __x.imag() * __y.imag_j());
  
  return __r;

};


}; // HAXX namespace

#endif
".
(** include/haxx/haxx_quaternion_op.hpp, all 177 lines *)
Definition hsrc_quat : string := "/*
 *  This file is a part of HAXX
 *  
 *  Copyright (c) 2017 David Williams-Young
 *  All rights reserved.
 *  
 *  See LICENSE.txt 
 */

#ifndef __INCLUDED_HAXX_QUATERNION_OP_HPP
#define __INCLUDED_HAXX_QUATERNION_OP_HPP

#include ""haxx/haxx_def.hpp""

namespace HAXX {

/**
 * Assigns a quaternion of a different type to this quaternion
 */
template <typename _F>
template <typename _G>
quaternion<_F>& quaternion<_F>::operator=(const quaternion<_G> &__q) {

  _M_real   = __q.real();
  _M_imag_i = __q.imag_i();
  _M_imag_j = __q.imag_j();
  _M_imag_k = __q.imag_k();

  return *this;

};

/**
 *  \f$ p = p + q \qquad p,q \in \mathbb{H} \f$
 */
template <typename _F>
template <typename _G>
quaternion<_F>& quaternion<_F>::operator+=(const quaternion<_G> &__q) {

  _M_real   += __q.real();
  _M_imag_i += __q.imag_i();
  _M_imag_j += __q.imag_j();
  _M_imag_k += __q.imag_k();

  return *this;

};

/**
 *  \f$ p = p - q \qquad p,q \in \mathbb{H} \f$
 */
template <typename _F>
template <typename _G>
quaternion<_F>& quaternion<_F>::operator-=(const quaternion<_G> &__q) {

  _M_real   -= __q.real();
  _M_imag_i -= __q.imag_i();
  _M_imag_j -= __q.imag_j();
  _M_imag_k -= __q.imag_k();

  return *this;

};




/**
 * \f$ r = -q = (-q^R, -q^I, -q^J, -q^K) \f$
 */
template <typename _F>
inline quaternion<_F> operator-(const quaternion<_F>& __x) {

  return quaternion<_F>(-__x.real(),-__x.imag_i(),-__x.imag_j(),-__x.imag_k());

}


/**
 *  \f$r = p + q \qquad r,p,q\in\mathbb{H} \f$
 */
template <typename _F>
inline quaternion<_F> operator+(const quaternion<_F>& __x, 
  const quaternion<_F>& __y) {

  quaternion<_F> __r = __x;
  __r += __y;
  return __r;

};

/**
 *  \f$r = p - q \qquad r,p,q\in\mathbb{H} \f$
 */
template <typename _F>
inline quaternion<_F> operator-(const quaternion<_F>& __x, 
  const quaternion<_F>& __y) {

  quaternion<_F> __r = __x;
  __r -= __y;
  return __r;

};

/**
 *  \f$ r = pq \qquad r,p,q\in\mathbb{H} \f$
 */
template <typename _F>
inline quaternion<_F> operator*(const quaternion<_F>& __x,
  const quaternion<_F>& __y) {

  quaternion<_F> __r;

  // This is a really naive algorithm
  __r.real(__x.real()   * __y.real()   - __x.imag_i() * __y.imag_i() -
           __x.imag_j() * __y.imag_j() - __x.imag_k() * __y.imag_k());

  __r.imag_i(__x.real()   * __y.imag_i() + __x.imag_i() * __y.real()   +
             __x.imag_j() * __y.imag_k() - __x.imag_k() * __y.imag_j());

  __r.imag_j(__x.real()   * __y.imag_j() - __x.imag_i() * __y.imag_k()  +
             __x.imag_j() * __y.real()   + __x.imag_k() * __y.imag_i());

  __r.imag_k(__x.real()   * __y.imag_k() + __x.imag_i() * __y.imag_j()  -
             __x.imag_j() * __y.imag_i() + __x.imag_k() * __y.real());
  
  return __r;

};

#if defined(__AVX__) || defined(__AVX2__)

  // C++ wrapper around SIMD quaternion multiplication
  template<>
  inline quaternion<double> operator*(const quaternion<double>& __x,
    const quaternion<double>& __y) {
  
    quaternion<double> __r;
  
    // Load x,y into 256-bit vector lanes and perform the multiplication
    __m256d x = LOAD_256D_UNALIGNED_AS(double,&__x);
    __m256d y = LOAD_256D_UNALIGNED_AS(double,&__y);
    __m256d r = MULDQ_NN(x,y);
  
    STORE_256D_UNALIGNED_AS(double,&__r,r);
    
    return __r;
  };

#endif

/**
 *  Returns true iff all of the elements of quaternion \f$q\f$ are the
 *  same as quaternoin \f$p\f$.
 */
template <typename _F>
inline bool operator==(const quaternion<_F>& p, const quaternion<_F>& q) {

  return p.real() == q.real() and p.imag_i() == q.imag_i() 
    and p.imag_j() == q.imag_j() and q.imag_k() == q.imag_k();

}

/**
 *  Returns true iff all of the elements of quaternion \f$q\f$ are the
 *  same as quaternoin \f$p\f$.
 */
template <typename _F>
inline bool operator!=(const quaternion<_F>& p, const quaternion<_F>& q) {

  return not (p == q); 

}

}; // HAXX namespace

#endif
".
(** include/haxx/haxx_quaternion_reduction.hpp, all 142 lines *)
Definition hsrc_red : string := "/*
 *  This file is a part of HAXX
 *  
 *  Copyright (c) 2017 David Williams-Young
 *  All rights reserved.
 *  
 *  See LICENSE.txt 
 */

#ifndef __INCLUDED_HAXX_QUATERNION_REDUCTION_HPP
#define __INCLUDED_HAXX_QUATERNION_REDUCTION_HPP

#include ""haxx/haxx_def.hpp""

namespace HAXX {

/**
 *  \f$ \vert\vert q \vert\vert = \sqrt{a^2 + b^2 + c^2 + d^2} 
 *    \qquad q = (a,b,c,d) \in \mathbb{H}\f$
 *
 *  Return type is the value_type
 */
template <typename _F>
inline _F norm(const quaternion<_F>& __q) {
  _F nmsq = __q.real() * __q.real();
  nmsq += __q.imag_i() * __q.imag_i();
  nmsq += __q.imag_j() * __q.imag_j();
  nmsq += __q.imag_k() * __q.imag_k();

  return std::sqrt(nmsq);
};

/**
 *  \f$ q^* = (q^R,-q^I,-q^J,-q^K)\f$
 */
template <typename _F>
inline quaternion<_F> conj(const quaternion<_F>& __q) {

  return quaternion<_F>(__q.real(),-__q.imag_i(),-__q.imag_j(),-__q.imag_k());

};

// Attempt at SIMD conjugate, slows down the code
#if 0
//#if defined(__AVX__) || defined(__AVX2__)

  template<>
  inline quaternion<double> conj(const quaternion<double> &__q) {
  
    quaternion<double> __r;
  
    __m256d r = LOAD_256D_UNALIGNED_AS(double,&__q);
    r = QCONJ_256D(r);
  
    STORE_256D_UNALIGNED_AS(double,&__r,r);

    return __r;
  
  }

#endif

/**
 *  \f$ q^{-1} = \dfrac{q^*}{\vert\vert q \vert\vert^2} \f$
 */
template <typename _F>
inline quaternion<_F> inv(const quaternion<_F>& __q) {

  _F nrm = norm(__q);
  return conj(__q) / nrm / nrm;

};

/**
 *  \f$ r = \dfrac{q}{\vert\vert q \vert\vert} \f$
 */
template <typename _F>
inline quaternion<_F> versor(const quaternion<_F>& __q) {

  _F nrm = norm(__q);
  return __q / nrm;

};

/**
 *  \f$ [p,q] = pq - qp \f$
 */
template <typename _F>
inline quaternion<_F> comm(const quaternion<_F>& p, const quaternion<_F>& q) {

  return p * q - q * p;

};

template <typename _F> 
inline quaternion<_F> comm(const quaternion<_F>& p, const std::complex<_F>& q) {
/*
  std::complex<double> jPt(p.imag_j(),p.imag_k());
  return quaternion<_F>(std::complex<double>(0.),2.*jPt*std::imag(q));
*/
  return p * q - q * p;
};

template <typename _F> 
inline quaternion<_F> comm(const std::complex<_F>& p, const quaternion<_F>& q) {

  return -comm(q,p);

}


template <typename _F> 
inline quaternion<_F> comm(const _F& p, const quaternion<_F>& q) {

  return quaternion<_F>(0.);

}

template <typename _F> 
inline quaternion<_F> comm(const quaternion<_F>& q, const _F& p) {

  return quaternion<_F>(0.);

}



template<> inline double SmartConj( double &x ) { return x; }
template<> 
  inline std::complex<double> SmartConj( std::complex<double> &x ) { 
    return std::conj(x); 
  }
template<> 
  inline quaternion<double> SmartConj( quaternion<double> &x ) { 
    return conj(x); 
  }



};

#endif
".
