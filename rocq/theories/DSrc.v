(** Texts that wire the public entry points to their implementations, copied byte for byte from /repo (every double quote is doubled, as Coq strings require). *)
From Coq Require Import String.
Local Open Scope string_scope.
(** src/hblas/CMakeLists.txt, all 22 lines *)
Definition dcmake_hblas : string := "add_subdirectory(fortran)

if( NOT ENABLE_GENERIC_FORTRAN )
  add_subdirectory(cxx)
endif()

configure_file( hblas1.cxx.in ${PROJECT_BINARY_DIR}/src/hblas/hblas1.cxx )
configure_file( hblas2.cxx.in ${PROJECT_BINARY_DIR}/src/hblas/hblas2.cxx )
configure_file( hblas3.cxx.in ${PROJECT_BINARY_DIR}/src/hblas/hblas3.cxx )

set( HBLAS_IMPL_SRC 
  ${PROJECT_BINARY_DIR}/src/hblas/hblas1.cxx
  ${PROJECT_BINARY_DIR}/src/hblas/hblas2.cxx
  ${PROJECT_BINARY_DIR}/src/hblas/hblas3.cxx
  util.cxx
)

add_library( hblas STATIC ${HBLAS_IMPL_SRC} ${HBLAS1_OBJ} ${HBLAS3_OBJ}  )

target_link_libraries(hblas PUBLIC hblas_fortran)

install(TARGETS hblas DESTINATION lib)
".
(** src/hblas/hblas1.cxx.in, all 118 lines *)
Definition dsrc_hblas1 : string := "/*
 *  This file is a part of HAXX
 *  
 *  Copyright (c) 2017 David Williams-Young
 *  All rights reserved.
 *  
 *  See LICENSE.txt 
 */

#include ""haxx.hpp""
#include ""hblas/generic/hblas1/hblas_scalm_impl.hpp"" 
#include ""hblas/generic/hblas1/hblas_axpym_impl.hpp"" 

#cmakedefine ENABLE_GENERIC_FORTRAN
#cmakedefine ENABLE_GENERIC_CXX


// Preprocessor macros for quick CXX implementations

#define SWAPV_CXX_IMPL(F) \
template \
void HBLAS_SWAPV(const HAXX_INT, quaternion<F> * const , const HAXX_INT,\
  quaternion<F> * const , const HAXX_INT);

#define COPYV_CXX_IMPL(F) \
template \
void HBLAS_COPYV(const HAXX_INT, quaternion<F> * const , const HAXX_INT,\
  quaternion<F> * const , const HAXX_INT);


#define SCALM_CXX_IMPL(F,ALPHAF) \
template \
void HBLAS_SCALM(const char SIDE, const char TRANSA, const HAXX_INT M, \
  const HAXX_INT N, const ALPHAF ALPHA, quaternion<F> * const A, \
  const HAXX_INT LDA, const HAXX_INT INCA);

#define AXPYM_CXX_IMPL(F,XF,ALPHAF) \
template \
void HBLAS_AXPYM(const char SIDE, const char TRANSA, const HAXX_INT M, \
  const HAXX_INT N, const ALPHAF ALPHA, XF * const A, const HAXX_INT LDA, \
  const HAXX_INT INCA, quaternion<F> * const B, const HAXX_INT LDB, \
  const HAXX_INT INCB);


// Preprocessor macros for quick FORTRAN implementations

#define DOT_FORTRAN_IMPL(FUNCNAME,NAME,F)\
template<>\
quaternion<F> HBLAS_##FUNCNAME( HAXX_INT N, quaternion<F> *X, \
  HAXX_INT INCX, quaternion<F> *Y, HAXX_INT INCY){\
  \
  quaternion<F> htemp;\
  NAME##_(&htemp, &N, X, &INCX, Y, &INCY);\
  return htemp;\
  \
}

#define SCALV_FORTRAN_IMPL(NAME,F,ALPHAF)\
template<>\
void HBLAS_SCALV(const char SIDE, const HAXX_INT N, const ALPHAF ALPHA,\
  quaternion<F> * const X, const HAXX_INT INCX) {\
  \
  NAME##_(&SIDE,&N,&ALPHA,X,&INCX);\
  \
};


#define AXPYV_FORTRAN_IMPL(NAME,F,XF,ALPHAF)\
template<> \
void HBLAS_AXPYV(const char SIDE, const HAXX_INT N, const ALPHAF ALPHA,\
  XF * const X, const HAXX_INT INCX, quaternion<F> * const Y, \
  const HAXX_INT INCY) {\
  \
  NAME##_(&SIDE,&N,&ALPHA,X,&INCX,Y,&INCY);\
  \
};

namespace HAXX {

  // HBLAS1V functions

#ifdef ENABLE_GENERIC_CXX
  SWAPV_CXX_IMPL(double);
#endif
  
#ifdef ENABLE_GENERIC_FORTRAN
  SCALV_FORTRAN_IMPL(hscald,double,double);
  SCALV_FORTRAN_IMPL(hscalc,double,std::complex<double>);
  SCALV_FORTRAN_IMPL(hscalh,double,quaternion<double>);
#endif

#ifdef ENABLE_GENERIC_CXX
  COPYV_CXX_IMPL(double);
#endif

#ifdef ENABLE_GENERIC_FORTRAN
  AXPYV_FORTRAN_IMPL(haxpydh,double,quaternion<double>,double);
  AXPYV_FORTRAN_IMPL(haxpych,double,quaternion<double>,std::complex<double>);
  AXPYV_FORTRAN_IMPL(haxpyhh,double,quaternion<double>,quaternion<double>);
#endif

#ifdef ENABLE_GENERIC_FORTRAN
  DOTV_FORTRAN_IMPL(DOTUV,hdotu,double);
  DOTV_FORTRAN_IMPL(DOTCV,hdotc,double);
#endif

  // HBLAS1M functions
    
  SCALM_CXX_IMPL(double,double);
  SCALM_CXX_IMPL(double,std::complex<double>);
  SCALM_CXX_IMPL(double,quaternion<double>);

  AXPYM_CXX_IMPL(double,quaternion<double>,double);
  AXPYM_CXX_IMPL(double,quaternion<double>,std::complex<double>);
  AXPYM_CXX_IMPL(double,quaternion<double>,quaternion<double>);

};

".
(** src/hblas/hblas2.cxx.in, all 97 lines *)
Definition dsrc_hblas2 : string := "/*
 *  This file is a part of HAXX
 *  
 *  Copyright (c) 2017 David Williams-Young
 *  All rights reserved.
 *  
 *  See LICENSE.txt 
 */

#include ""haxx.hpp""
#include ""hblas/generic/hblas2/impl.hpp""

// Preprocessor macros for quick CXX implementations
  
#define GEMV_CXX_IMPL(F,MATF,VECF,ALPHAF,BETAF) \
template \
void HBLAS_GEMV(const char TRANS, const HAXX_INT M, const HAXX_INT N, \
  const ALPHAF ALPHA, MATF * const A, const HAXX_INT LDA, \
  VECF * const X, const HAXX_INT INCX, const BETAF BETA, \
  quaternion<F> * const Y, const HAXX_INT INCY);




// Preprocessor macros for quick FORTRAN implementations

#define GEMV_FORTRAN_IMPL(NAME,F,MATF,VECF,ALPHAF,BETAF) \
template <>\
void HBLAS_GEMV(const char TRANS, const HAXX_INT M, const HAXX_INT N, \
  const ALPHAF ALPHA, MATF * const A, const HAXX_INT LDA, \
  VECF * const X, const HAXX_INT INCX, const BETAF BETA, \
  quaternion<F> * const Y, const HAXX_INT INCY) {\
  \
  NAME##_(&TRANS,&M,&N,&ALPHA,A,&LDA,X,&INCX,&BETA,Y,&INCY);\
  \
};

#define GER_FORTRAN_IMPL(FUNCNAME,NAME,F,LEFTF,RIGHTF,ALPHAF) \
template <>\
void HBLAS_##FUNCNAME(const HAXX_INT M, const HAXX_INT N, const ALPHAF ALPHA,\
  LEFTF  * const X, const HAXX_INT INCX, RIGHTF * const Y, const HAXX_INT INCY,\
  quaternion<F> * const A, const HAXX_INT LDA) {\
  \
  NAME##_(&M,&N,&ALPHA,X,&INCX,Y,&INCY,A,&LDA);\
  \
}


namespace HAXX {

  // GEMV functions

  GEMV_FORTRAN_IMPL(hgemvdd,double,quaternion<double>,quaternion<double>,
    double, double);
  GEMV_FORTRAN_IMPL(hgemvdz,double,quaternion<double>,quaternion<double>,
    double, std::complex<double>);
  GEMV_FORTRAN_IMPL(hgemvdh,double,quaternion<double>,quaternion<double>,
    double, quaternion<double>);

  GEMV_FORTRAN_IMPL(hgemvzd,double,quaternion<double>,quaternion<double>,
    std::complex<double>,double);
  GEMV_FORTRAN_IMPL(hgemvzz,double,quaternion<double>,quaternion<double>,
    std::complex<double>,std::complex<double>);
  GEMV_FORTRAN_IMPL(hgemvzh,double,quaternion<double>,quaternion<double>,
    std::complex<double>, quaternion<double>);

  GEMV_FORTRAN_IMPL(hgemvhd,double,quaternion<double>,quaternion<double>,
    quaternion<double>,double);
  GEMV_FORTRAN_IMPL(hgemvhz,double,quaternion<double>,quaternion<double>,
    quaternion<double>,std::complex<double>);
  GEMV_FORTRAN_IMPL(hgemvhh,double,quaternion<double>,quaternion<double>,
    quaternion<double>, quaternion<double>);

  // Use CXX for REAL-QUATERNION multiplication
  GEMV_CXX_IMPL(double,double,quaternion<double>,double,double);



  // GERU functions 
    
  GER_FORTRAN_IMPL(GERU,hgerud,double,quaternion<double>,quaternion<double>,
    double)
  GER_FORTRAN_IMPL(GERU,hgeruz,double,quaternion<double>,quaternion<double>,
    std::complex<double>)
  GER_FORTRAN_IMPL(GERU,hgeruh,double,quaternion<double>,quaternion<double>,
    quaternion<double>)

  // GERC functions

  GER_FORTRAN_IMPL(GERC,hgercd,double,quaternion<double>,quaternion<double>,
    double)
  GER_FORTRAN_IMPL(GERC,hgercz,double,quaternion<double>,quaternion<double>,
    std::complex<double>)
  GER_FORTRAN_IMPL(GERC,hgerch,double,quaternion<double>,quaternion<double>,
    quaternion<double>)
};

".
(** src/hblas/hblas3.cxx.in, all 67 lines *)
Definition dsrc_hblas3 : string := "/*
 *  This file is a part of HAXX
 *  
 *  Copyright (c) 2017 David Williams-Young
 *  All rights reserved.
 *  
 *  See LICENSE.txt 
 */

#include ""haxx.hpp""
#include ""hblas/generic/hblas3/impl.hpp""

// Preprocessor macros for quick CXX implementations
  
#define GEMM_CXX_IMPL(F,AMATF,BMATF,ALPHAF,BETAF) \
template \
void HBLAS_GEMM(const char, const char, const HAXX_INT, const HAXX_INT, \
  const HAXX_INT, const ALPHAF ALPHA, AMATF * const, const HAXX_INT, \
  BMATF * const, const HAXX_INT, const BETAF BETA, \
  quaternion<F> * const, const HAXX_INT);


// Preprocessor macros for quick FORTRAN implementations
  
#define GEMM_FORTRAN_IMPL(NAME,F,AMATF,BMATF,ALPHAF,BETAF) \
template<>\
void HBLAS_GEMM(const char TRANSA, const char TRANSB, const HAXX_INT M,\
  const HAXX_INT N, const HAXX_INT K, const ALPHAF ALPHA, \
  AMATF * const A, const HAXX_INT LDA, BMATF * const B, const HAXX_INT LDB, \
  const BETAF BETA, quaternion<F> * const C, const HAXX_INT LDC){\
  \
  NAME##_(&TRANSA,&TRANSB,&M,&N,&K,&ALPHA,A,&LDA,B,&LDB,&BETA,\
    C,&LDC);\
  \
};

namespace HAXX {

  // GEMM functions
    
//GEMM_FORTRAN_IMPL(hgemmdd,double,quaternion<double>,quaternion<double>,
//  double,double);
//GEMM_FORTRAN_IMPL(hgemmdz,double,quaternion<double>,quaternion<double>,
//  double,std::complex<double>);
  GEMM_FORTRAN_IMPL(hgemmdh,double,quaternion<double>,quaternion<double>,
    double,quaternion<double>);

//GEMM_FORTRAN_IMPL(hgemmzd,double,quaternion<double>,quaternion<double>,
//  std::complex<double>,double);
//GEMM_FORTRAN_IMPL(hgemmzz,double,quaternion<double>,quaternion<double>,
//  std::complex<double>,std::complex<double>);
  GEMM_FORTRAN_IMPL(hgemmzh,double,quaternion<double>,quaternion<double>,
    std::complex<double>,quaternion<double>);

  GEMM_FORTRAN_IMPL(hgemmhd,double,quaternion<double>,quaternion<double>,
    quaternion<double>,double);
  GEMM_FORTRAN_IMPL(hgemmhz,double,quaternion<double>,quaternion<double>,
    quaternion<double>,std::complex<double>);
  GEMM_FORTRAN_IMPL(hgemmhh,double,quaternion<double>,quaternion<double>,
    quaternion<double>,quaternion<double>);


// Instantiate REAL-QUATERION matrix multiplication from template
  GEMM_CXX_IMPL(double,double,quaternion<double>,double,double);

};

".
(** src/hblas/util.cxx, all 17 lines *)
Definition dsrc_util : string := "/*
 *  This file is a part of HAXX
 *  
 *  Copyright (c) 2017 David Williams-Young
 *  All rights reserved.
 *  
 *  See LICENSE.txt 
 */

#include ""haxx.hpp""
#include ""hblas/generic/util/impl.hpp""

namespace HAXX {


};

".
(** include/hblas/generic/util/impl.hpp, all 17 lines *)
Definition dsrc_util_impl : string := "/*
 *  This file is a part of HAXX
 *  
 *  Copyright (c) 2017 David Williams-Young
 *  All rights reserved.
 *  
 *  See LICENSE.txt 
 */

#ifndef __INCLUDED_HBLAS_UTIL_IMPL_HPP
#define __INCLUDED_HBLAS_UTIL_IMPL_HPP

#include ""expand_impl.hpp""
#include ""contract_impl.hpp""

#endif

".
(** include/hblas/generic/util/expand_impl.hpp, all 42 lines *)
Definition dsrc_expand : string := "/*
 *  This file is a part of HAXX
 *  
 *  Copyright (c) 2017 David Williams-Young
 *  All rights reserved.
 *  
 *  See LICENSE.txt 
 */

#ifndef __INCLUDED_HBLAS_UTIL_EXPAND_IMPL_HPP
#define __INCLUDED_HBLAS_UTIL_EXPAND_IMPL_HPP

#include <cassert>
#include ""hblas/hblas_util.hpp""

namespace HAXX {

  template <>
  void HBLAS_COMPLEX_EXPAND(char ORDER, HAXX_INT M, HAXX_INT N, 
    quaternion<double> *A, HAXX_INT LDA, std::complex<double> *B, 
    HAXX_INT LDB) {

    assert( ORDER == 'F' or ORDER == 'S' );

    if( ORDER == 'F' )
      hzexp1_(&M,&N,A,&LDA,B,&LDB);
    else
      hzexp2_(&M,&N,A,&LDA,B,&LDB);

  }

  template <>
  void HBLAS_REAL_EXPAND(HAXX_INT M, HAXX_INT N, quaternion<double> *A,
    HAXX_INT LDA, double *B, HAXX_INT LDB) {

    hdexp_(&M,&N,A,&LDA,B,&LDB);

  }

}; // namespace HAXX

#endif
".
(** include/hblas/generic/util/contract_impl.hpp, all 35 lines *)
Definition dsrc_contract : string := "/*
 *  This file is a part of HAXX
 *  
 *  Copyright (c) 2017 David Williams-Young
 *  All rights reserved.
 *  
 *  See LICENSE.txt 
 */

#ifndef __INCLUDED_HBLAS_UTIL_CONTRACT_IMPL_HPP
#define __INCLUDED_HBLAS_UTIL_CONTRACT_IMPL_HPP

#include <cassert>
#include ""hblas/hblas_util.hpp""

namespace HAXX {

  template <>
  void HBLAS_COMPLEX_CONTRACT(char ORDER, char UPLO, HAXX_INT M, HAXX_INT N, 
    quaternion<double> *A, HAXX_INT LDA, std::complex<double> *B, 
    HAXX_INT LDB) {

    assert( ORDER == 'F' or ORDER == 'S' );

    if( ORDER == 'F' )
      hzcon1_(&UPLO,&M,&N,A,&LDA,B,&LDB);
    else
      hzcon2_(&UPLO,&M,&N,A,&LDA,B,&LDB);

  }


}; // namespace HAXX

#endif
".
(** src/hblas/cxx/hblas1/CopySwap.cmake, all 14 lines *)
Definition dcmake_copyswap : string := "# COPY / SWAP functions

add_library( hblas_copyv OBJECT copy_swap.cxx )
add_library( hblas_swapv OBJECT copy_swap.cxx )
              
target_compile_definitions( hblas_copyv PRIVATE ""FNAME=HBLAS_COPYV"" ""_COPY"" )
target_compile_definitions( hblas_swapv PRIVATE ""FNAME=HBLAS_SWAPV"" ""_SWAP"" )

set( COPY_SWAP_OBJ 
    $<TARGET_OBJECTS:hblas_copyv> 
    $<TARGET_OBJECTS:hblas_swapv> 
  CACHE LIST ""Object Files for COPYV and SWAPV function"" )


".
(** src/hblas/cxx/hblas1/Dot.cmake, all 14 lines *)
Definition dcmake_dot : string := "# DOT functions

add_library( hblas_dotuv OBJECT dot.cxx )
add_library( hblas_dotcv OBJECT dot.cxx )

target_compile_definitions( hblas_dotuv PRIVATE ""FNAME=HBLAS_DOTUV""         )
target_compile_definitions( hblas_dotcv PRIVATE ""FNAME=HBLAS_DOTCV"" ""_CONJ"" )

set( DOT_OBJ 
    $<TARGET_OBJECTS:hblas_dotuv> 
    $<TARGET_OBJECTS:hblas_dotcv> 
  CACHE LIST ""Object Files for DOTV functions""
)

".
(** src/hblas/cxx/hblas1/AXPYScal.cmake, all 26 lines *)
Definition dcmake_axpyscal : string := "# AXPY/SCAL functions

add_library( hblas_scalvd  OBJECT axpy_scal.cxx )
add_library( hblas_scalvz  OBJECT axpy_scal.cxx )
add_library( hblas_scalvh  OBJECT axpy_scal.cxx )
add_library( hblas_axpyvdh OBJECT axpy_scal.cxx )
add_library( hblas_axpyvzh OBJECT axpy_scal.cxx )
add_library( hblas_axpyvhh OBJECT axpy_scal.cxx )

target_compile_definitions( hblas_scalvd  PRIVATE ""FNAME=HBLAS_SCALV"" ""_SCAL"" ""ALPHAF=DOUBLE""      )
target_compile_definitions( hblas_scalvz  PRIVATE ""FNAME=HBLAS_SCALV"" ""_SCAL"" ""ALPHAF=DCOMPLEX""    )
target_compile_definitions( hblas_scalvh  PRIVATE ""FNAME=HBLAS_SCALV"" ""_SCAL"" ""ALPHAF=DQUATERNION"" )
target_compile_definitions( hblas_axpyvdh PRIVATE ""FNAME=HBLAS_AXPYV"" ""_AXPY"" ""ALPHAF=DOUBLE""      )
target_compile_definitions( hblas_axpyvzh PRIVATE ""FNAME=HBLAS_AXPYV"" ""_AXPY"" ""ALPHAF=DCOMPLEX""    )
target_compile_definitions( hblas_axpyvhh PRIVATE ""FNAME=HBLAS_AXPYV"" ""_AXPY"" ""ALPHAF=DQUATERNION"" )

set(AXPY_SCAL_OBJ
    $<TARGET_OBJECTS:hblas_scalvd> 
    $<TARGET_OBJECTS:hblas_scalvz> 
    $<TARGET_OBJECTS:hblas_scalvh> 
    $<TARGET_OBJECTS:hblas_axpyvdh> 
    $<TARGET_OBJECTS:hblas_axpyvzh> 
    $<TARGET_OBJECTS:hblas_axpyvhh> 
  CACHE LIST ""Object Files for SCAL and AXPY functions""
)

".
(** src/hblas/cxx/hblas3/Gemm.cmake, all 19 lines *)
Definition dcmake_gemm : string := "# GEMM functions
add_library( hblas_gemmdd OBJECT gemm.cxx kern.cxx)
add_library( hblas_gemmdz OBJECT gemm.cxx kern.cxx)
add_library( hblas_gemmzd OBJECT gemm.cxx kern.cxx)
add_library( hblas_gemmzz OBJECT gemm.cxx kern.cxx)

target_compile_definitions( hblas_gemmdd PRIVATE ""AMATF=DQUATERNION"" ""BMATF=DQUATERNION"" ""ALPHAF=DOUBLE""   ""BETAF=DOUBLE""   )
target_compile_definitions( hblas_gemmdz PRIVATE ""AMATF=DQUATERNION"" ""BMATF=DQUATERNION"" ""ALPHAF=DOUBLE""   ""BETAF=DCOMPLEX"" )
target_compile_definitions( hblas_gemmzd PRIVATE ""AMATF=DQUATERNION"" ""BMATF=DQUATERNION"" ""ALPHAF=DCOMPLEX"" ""BETAF=DOUBLE""   )
target_compile_definitions( hblas_gemmzz PRIVATE ""AMATF=DQUATERNION"" ""BMATF=DQUATERNION"" ""ALPHAF=DCOMPLEX"" ""BETAF=DCOMPLEX"" )

set(GEMM_OBJ
    $<TARGET_OBJECTS:hblas_gemmdd>
    $<TARGET_OBJECTS:hblas_gemmzd>
    $<TARGET_OBJECTS:hblas_gemmdz>
    $<TARGET_OBJECTS:hblas_gemmzz>
  CACHE LIST ""Object Files for GEMM functions""
)

".
(** src/hblas/cxx/hblas1/CMakeLists.txt, all 9 lines *)
Definition dcmake_hblas1 : string := "##### HBLAS1 COMPILATION #####

include(CopySwap.cmake)
include(Dot.cmake)
include(AXPYScal.cmake)


set( HBLAS1_OBJ ${DOT_OBJ} ${AXPY_SCAL_OBJ} ${COPY_SWAP_OBJ}
  CACHE LIST ""Object Files for HBLAS1 functions"" )
".
(** src/hblas/cxx/hblas3/CMakeLists.txt, all 6 lines *)
Definition dcmake_hblas3 : string := "##### HBLAS3 COMPILATION #####

include(Gemm.cmake)

set(HBLAS3_OBJ ${GEMM_OBJ} CACHE LIST 
  ""Object Files for HBLAS3 functions"" )
".
