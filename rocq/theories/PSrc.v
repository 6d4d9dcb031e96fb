(** Headers that declare the Fortran routines to C++, copied byte for byte from /repo (every double quote is doubled, as Coq strings require). *)
From Coq Require Import String.
Local Open Scope string_scope.
(** include/hblas/hblas1.hpp, all 137 lines *)
Definition psrc_hblas1 : string := "/*
 *  This file is a part of HAXX
 *  
 *  Copyright (c) 2017 David Williams-Young
 *  All rights reserved.
 *  
 *  See LICENSE.txt 
 */

#ifndef __INCLUDED_HBLAS1_HPP
#define __INCLUDED_HBLAS1_HPP

#include ""haxx/haxx_def.hpp""

// Preprocessor macros for quick FORTRAN declarations

#define SCAL_FORTRAN_DECL(NAME,F,ALPHAF) \
void NAME##_(const char*, const HAXX_INT*, const ALPHAF*, \
  const quaternion<F> *, const HAXX_INT*);

#define DOT_FORTRAN_DECL(NAME,F) \
void NAME##_(const quaternion<F> *, const HAXX_INT*, const quaternion<F> *,\
  const HAXX_INT*, const quaternion<F> *, const HAXX_INT*);

#define AXPY_FORTRAN_DECL(NAME,F,XF,ALPHAF)\
void NAME##_(const char*, const HAXX_INT*, const ALPHAF*, const XF *, \
  const HAXX_INT*, const quaternion<F> *, const HAXX_INT*);





namespace HAXX {


  // FORTRAN HBLAS1 functions
  extern ""C"" {

    // SCAL functions  
    SCAL_FORTRAN_DECL(hscald,double,double);
    SCAL_FORTRAN_DECL(hscalc,double,std::complex<double>);
    SCAL_FORTRAN_DECL(hscalh,double,quaternion<double>);

    // DOT functions
    DOT_FORTRAN_DECL(hdotu,double);
    DOT_FORTRAN_DECL(hdotc,double);

    // AXPY functions
    AXPY_FORTRAN_DECL(haxpydh,double,quaternion<double>,double);
    AXPY_FORTRAN_DECL(haxpych,double,quaternion<double>,std::complex<double>);
    AXPY_FORTRAN_DECL(haxpyhh,double,quaternion<double>,quaternion<double>);

  };


  /**
   *  \addtogroup HBLAS
   *  @{
   *
   *
   *  @defgroup HBLAS1 Level 1 HBLAS
   *  Level 1 BLAS operations over quaternion numbers
   *
   *  @{
   */


  /**
   *  @defgroup HBLAS1V Level 1 HBLASV
   *  Level 1 BLAS operations on quaternion vectors
   *
   *  @{
   */ 

  /// Swap the states of two quaternion arrays
  template <typename _F>
  void HBLAS_SWAPV(const HAXX_INT N, quaternion<_F> * const X, 
    const HAXX_INT INCX, quaternion<_F> * const Y, const HAXX_INT INCY);

  /// Copy a quaternion array to another quaternion array
  template <typename _F>
  void HBLAS_COPYV(const HAXX_INT N, quaternion<_F> * const X, 
    const HAXX_INT INCX, quaternion<_F> * const Y, const HAXX_INT INCY);

  /// Scale a quaternion array by a scalar
  template <typename _F, typename _AlphaF>
  void HBLAS_SCALV(const char SIDE, const HAXX_INT N, const _AlphaF ALPHA, 
    quaternion<_F> * const X, const HAXX_INT INCX);

  /// Scale a quaternion array and add it to another quaternion array
  template <typename _F, typename _XF, typename _AlphaF>
  void HBLAS_AXPYV(const char SIDE, const HAXX_INT N, const _AlphaF ALPHA, 
    _XF * const X, const HAXX_INT INCX, quaternion<_F> * const Y, 
    const HAXX_INT INCY);

  /// Perform an unaltered dot product of two quaternion arrays
  template <typename _F>
  quaternion<_F> HBLAS_DOTUV(const HAXX_INT N, quaternion<_F> * const X, 
    const HAXX_INT INCX, quaternion<_F> * const Y, const HAXX_INT INCY);

  /// Obtain the inner product of two quaternion arrays
  template <typename _F>
  quaternion<_F> HBLAS_DOTCV(const HAXX_INT N, quaternion<_F> * const X, 
    const HAXX_INT INCX, quaternion<_F> * const Y, const HAXX_INT INCY);

  /* @} */ // HBLAS1V


  /**
   *  @defgroup HBLAS1M Level 1 HBLASM
   *  Level 1 BLAS operations on quaternion matricies (ala BLIS)
   *
   *  @{
   */ 

  /// Scale / Transpose / Conjugate a quaternion matrix in place
  template <typename _F, typename _AlphaF>
  void HBLAS_SCALM(const char SIDE, const char TRANSA, const HAXX_INT M, 
    const HAXX_INT N, const _AlphaF ALPHA, quaternion<_F> * const A, 
    const HAXX_INT LDA, const HAXX_INT INCA);

  /// Accumulate a quaternion matrix
  template <typename _F, typename _XF, typename _AlphaF>
  void HBLAS_AXPYM(const char SIDE, const char TRANSA, const HAXX_INT M, 
    const HAXX_INT N, const _AlphaF ALPHA, _XF * const A, const HAXX_INT LDA, 
    const HAXX_INT INCA, quaternion<_F> * const B, const HAXX_INT LDB, 
    const HAXX_INT INCB);

  /* @} */ // HBLAS1M

  /* @} */ // HBLAS1

  /* @} */ // HBLAS

}; // namespace HAXX

#endif
".
(** include/hblas/hblas2.hpp, all 115 lines *)
Definition psrc_hblas2 : string := "/*
 *  This file is a part of HAXX
 *  
 *  Copyright (c) 2017 David Williams-Young
 *  All rights reserved.
 *  
 *  See LICENSE.txt 
 */

#ifndef __INCLUDED_HBLAS2_HPP
#define __INCLUDED_HBLAS2_HPP

#include ""haxx/haxx_def.hpp""
#include ""util/macro.hpp""

#define GEMV_FORTRAN_DECL(NAME,F,MATF,VECF,ALPHAF,BETAF) \
void NAME##_(const char*, const HAXX_INT*, const HAXX_INT*, const ALPHAF*,\
  const MATF*, const HAXX_INT*, const VECF*, const HAXX_INT*, const BETAF*, \
  const quaternion<F>*, const HAXX_INT*);

#define GER_FORTRAN_DECL(NAME,F,LEFTF,RIGHTF,ALPHAF) \
void NAME##_(const HAXX_INT*, const HAXX_INT*, const ALPHAF*,\
  const LEFTF*, const HAXX_INT*, const RIGHTF*, const HAXX_INT*, \
  const quaternion<F>*, const HAXX_INT*);\

namespace HAXX {

  // FORTRAN HBLAS2 functions
  extern ""C"" {
  
    // GEMV functions

    GEMV_FORTRAN_DECL(hgemvdd,double,quaternion<double>,quaternion<double>,
      double, double);
    GEMV_FORTRAN_DECL(hgemvdz,double,quaternion<double>,quaternion<double>,
      double, std::complex<double>);
    GEMV_FORTRAN_DECL(hgemvdh,double,quaternion<double>,quaternion<double>,
      double, quaternion<double>);

    GEMV_FORTRAN_DECL(hgemvzd,double,quaternion<double>,quaternion<double>,
      std::complex<double>,double);
    GEMV_FORTRAN_DECL(hgemvzz,double,quaternion<double>,quaternion<double>,
      std::complex<double>,std::complex<double>);
    GEMV_FORTRAN_DECL(hgemvzh,double,quaternion<double>,quaternion<double>,
      std::complex<double>, quaternion<double>);

    GEMV_FORTRAN_DECL(hgemvhd,double,quaternion<double>,quaternion<double>,
      quaternion<double>,double);
    GEMV_FORTRAN_DECL(hgemvhz,double,quaternion<double>,quaternion<double>,
      quaternion<double>,std::complex<double>);
    GEMV_FORTRAN_DECL(hgemvhh,double,quaternion<double>,quaternion<double>,
      quaternion<double>, quaternion<double>);


 
    // GERU functions 
      
    GER_FORTRAN_DECL(hgerud,double,quaternion<double>,quaternion<double>,
      double)
    GER_FORTRAN_DECL(hgeruz,double,quaternion<double>,quaternion<double>,
      std::complex<double>)
    GER_FORTRAN_DECL(hgeruh,double,quaternion<double>,quaternion<double>,
      quaternion<double>)

    // GERC functions

    GER_FORTRAN_DECL(hgercd,double,quaternion<double>,quaternion<double>,
      double)
    GER_FORTRAN_DECL(hgercz,double,quaternion<double>,quaternion<double>,
      std::complex<double>)
    GER_FORTRAN_DECL(hgerch,double,quaternion<double>,quaternion<double>,
      quaternion<double>)

  };

  /**
   *  \addtogroup HBLAS
   *  @{
   *
   *
   *  @defgroup HBLAS2 Level 2 HBLAS
   *  Level 2 BLAS operations over quaternion numbers
   *
   *  @{
   */

  /// Multiply a general vector by a quaternion matrix
  template <typename _F,typename _MatF, typename _VecF, typename _AlphaF, 
    typename _BetaF>
  void HBLAS_GEMV(const char TRANS, const HAXX_INT M, const HAXX_INT N, 
    const _AlphaF ALPHA, _MatF * const A, const HAXX_INT LDA, _VecF * const X, 
    const HAXX_INT INCX, const _BetaF BETA, quaternion<_F> * const Y, 
    const HAXX_INT INCY);

  /// Perform the quaternion rank 1 operation with two general vectors
  template <typename _F, typename _LeftVecF, typename _RightVecF, 
    typename _AlphaF>
  void HBLAS_GERU(const HAXX_INT M, const HAXX_INT N, const _AlphaF ALPHA, 
    _LeftVecF * const X, const HAXX_INT INCX, _RightVecF * const Y, 
    const HAXX_INT INCY, quaternion<_F> * const A, const HAXX_INT LDA);

  /// Perform the quaternion rank 1 operation with two general vectors
  template <typename _F, typename _LeftVecF, typename _RightVecF, 
    typename _AlphaF>
  void HBLAS_GERC(const HAXX_INT M, const HAXX_INT N, const _AlphaF ALPHA, 
    _LeftVecF * const X, const HAXX_INT INCX, _RightVecF * const Y, 
    const HAXX_INT INCY, quaternion<_F> * const A, const HAXX_INT LDA);


  /* @} */ // HBLAS2

  /* @} */ // HBLAS
}; // namespace HAXX

#endif
".
(** include/hblas/hblas3.hpp, all 78 lines *)
Definition psrc_hblas3 : string := "/*
 *  This file is a part of HAXX
 *  
 *  Copyright (c) 2017 David Williams-Young
 *  All rights reserved.
 *  
 *  See LICENSE.txt 
 */

#ifndef __INCLUDED_HBLAS3_HPP
#define __INCLUDED_HBLAS3_HPP

#include ""haxx/haxx_def.hpp""

#define GEMM_FORTRAN_DECL(NAME,F,AMATF,BMATF,ALPHAF,BETAF) \
void NAME##_(const char*, const char*, const HAXX_INT*, const HAXX_INT*,\
  const HAXX_INT*, const ALPHAF*, const AMATF*, const HAXX_INT*,\
  const BMATF*, const HAXX_INT*, const BETAF*, const quaternion<F>*,\
  const HAXX_INT*);


namespace HAXX {

  // FORTRAN HBLAS3 Functions
  extern ""C"" {
  

    // GEMM functions
      
    GEMM_FORTRAN_DECL(hgemmdd,double,quaternion<double>,quaternion<double>,
      double,double);
    GEMM_FORTRAN_DECL(hgemmdz,double,quaternion<double>,quaternion<double>,
      double,std::complex<double>);
    GEMM_FORTRAN_DECL(hgemmdh,double,quaternion<double>,quaternion<double>,
      double,quaternion<double>);

    GEMM_FORTRAN_DECL(hgemmzd,double,quaternion<double>,quaternion<double>,
      std::complex<double>,double);
    GEMM_FORTRAN_DECL(hgemmzz,double,quaternion<double>,quaternion<double>,
      std::complex<double>,std::complex<double>);
    GEMM_FORTRAN_DECL(hgemmzh,double,quaternion<double>,quaternion<double>,
      std::complex<double>,quaternion<double>);

    GEMM_FORTRAN_DECL(hgemmhd,double,quaternion<double>,quaternion<double>,
      quaternion<double>,double);
    GEMM_FORTRAN_DECL(hgemmhz,double,quaternion<double>,quaternion<double>,
      quaternion<double>,std::complex<double>);
    GEMM_FORTRAN_DECL(hgemmhh,double,quaternion<double>,quaternion<double>,
      quaternion<double>,quaternion<double>);

  };

  /**
   *  \addtogroup HBLAS
   *  @{
   *
   *
   *  @defgroup HBLAS3 Level 3 HBLAS
   *  Level 3 BLAS operations over quaternion numbers
   *
   *  @{
   */

  /// Multiply a quaternion matrix by a quaternion matrix
  template <typename _F, typename _AMatF, typename _BMatF, typename _AlphaF, 
    typename _BetaF>
  void HBLAS_GEMM(const char TRANSA, const char TRANSB, const HAXX_INT M, 
    const HAXX_INT N, const HAXX_INT K, const _AlphaF ALPHA, _AMatF * const A, 
    const HAXX_INT LDA, _BMatF * const B, const HAXX_INT LDB, 
    const _BetaF BETA, quaternion<_F> * const C, const HAXX_INT LDC);

  /* @} */ // HBLAS3

  /* @} */ // HBLAS

}; // namespace HAXX

#endif
".
(** include/hblas/hblas_util.hpp, all 67 lines *)
Definition psrc_util : string := "/*
 *  This file is a part of HAXX
 *  
 *  Copyright (c) 2017 David Williams-Young
 *  All rights reserved.
 *  
 *  See LICENSE.txt 
 */

#ifndef __INCLUDED_HBLAS_UTIL_HPP
#define __INCLUDED_HBLAS_UTIL_HPP

#include ""haxx/haxx_def.hpp"" 

extern ""C"" {

  void hzexp1_(const int*, const int*, HAXX::quaternion<double>*, const int*,
    std::complex<double>*, const int*);
  void hzexp2_(const int*, const int*, HAXX::quaternion<double>*, const int*,
    std::complex<double>*, const int*);
  void hdexp_(const int*, const int*, HAXX::quaternion<double>*, const int*,
    double*, const int*);

  void hzcon1_(const char*, const int*, const int*, HAXX::quaternion<double>*, 
    const int*, std::complex<double>*, const int*);
  void hzcon2_(const char*, const int*, const int*, HAXX::quaternion<double>*, 
    const int*, std::complex<double>*, const int*);
}

namespace HAXX {

  /**
   *  \addtogroup HBLAS
   *  @{
   *
   *
   *  @defgroup HBLAS_UTIL HBLAS Utilities
   *  Utility functions for HBLAS
   *
   *  @{
   */


  /// Expand a quaternion matrix to a complex matrix
  template <typename _F>
  void HBLAS_COMPLEX_EXPAND(char ORDER, HAXX_INT M, HAXX_INT N, 
    quaternion<_F> *A, HAXX_INT LDA, std::complex<_F> *B, HAXX_INT LDB);

  /// Expans a quaternion matrix to a real matrix
  template <typename _F>
  void HBLAS_REAL_EXPAND(HAXX_INT M, HAXX_INT N, quaternion<_F> *A,
    HAXX_INT LDA, _F *B, HAXX_INT LDB);

  /// Contract a complex matrix (of proper symmetry) to a quaternion
  /// matrix
  template <typename _F>
  void HBLAS_COMPLEX_CONTRACT(char ORDER, char UPLO, HAXX_INT M, HAXX_INT N, 
    quaternion<_F> *A, HAXX_INT LDA, std::complex<_F> *B, HAXX_INT LDB);


  /* @} */ // HBLAS_UTIL

  /* @} */ // HBLAS

}; // namespace HAXX

#endif
".
