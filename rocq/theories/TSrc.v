(** Texts of the packing headers, copied byte for byte from /repo (every double quote is doubled, as Coq strings require). *)
From Coq Require Import String.
Local Open Scope string_scope.
(** include/hblas/pack/pack.hpp, all 240 lines *)
Definition tsrc_pack : string := "/*
 *  This file is a part of HAXX
 *  
 *  Copyright (c) 2017 David Williams-Young
 *  All rights reserved.
 *  
 *  See LICENSE.txt 
 */
#ifndef __INCLUDED_HBLAS_PACK_PACK_HPP
#define __INCLUDED_HBLAS_PACK_PACK_HPP

#include <cassert>

#include ""haxx.hpp""
#include ""util/simd.hpp""
#include ""util/boilerplate.hpp""

#include ""hblas/pack/typewrapper.hpp""
#include ""hblas/pack/packops.hpp""


namespace HAXX {

  /**
   *  \brief Packing function for packing along the fastest running index
   *  of a matrix.
   */ 
  template <size_t PK, typename T, typename PackOps, typename... Args>
  void TPACK(const HAXX_INT M, const HAXX_INT N, T *X,
    const HAXX_INT LDX, T *Xp, Args... args) {
  
  
    // Sanity Checks
      

    static_assert( PK > 0, ""Packing dimension must be non-zero"" );      

    static_assert(
      (sizeof(typename PackOps::load_t) % sizeof(T)) == 0,
      ""The size of the loaded variable must be an integer multiple of T"" 
    );

    constexpr size_t NLOAD = sizeof(typename PackOps::load_t) / sizeof(T);

    static_assert(
      ( PK % NLOAD ) == 0,
      ""The packing dimension must be an integer multiple of NLOAD""
    );

  
  
    HAXX_INT i,j;
  
  
    T *_x,*_x1,*_x2;
    T *_xp;
    
  
    _x  = X;
    _xp = Xp;
  
    auto alpha = PackOps::TypeWrapper::LoadScalar(args...);
  
  
    auto load_preOP = 
      overload(
        [&](auto &t){ 
          auto x = PackOps::TypeWrapper::Load(t);        
          return PackOps::preOP(x,alpha);
        },
        [&](){ 
          auto x = PackOps::TypeWrapper::Load();        
          return PackOps::preOP(x,alpha);
        }
      );
  
    auto ptrInc = [](auto &t){ return t + 1; };
  
    auto store = [](auto *&p, auto &t){ PackOps::TypeWrapper::Store(p,t);    };

    auto loopBody = [&](auto &xCol, auto *&xp) {

      for( i = 0; i < M; i++ ) {
  
        auto x   = apply_n<PK>( load_preOP, xCol );
        auto x_t = PackOps::OP(x);
  
        array_tuple_execute( store, xp, x_t );
  
        xCol = apply( ptrInc, xCol );
        xp += PK;
  
      }

    };
  
    j = N / PK;
    if( j > 0 )
    do {
  
      auto xCol = pointer_sequence<PK>(_x,LDX);
      _x += PK*LDX;

      loopBody(xCol,_xp);
      
      j--;
  
    } while(j > 0);
  

    j = N % PK;
    if( j ) {
  
      #ifdef _NDEBUG
        #undef _NDEBUG
        assert(j == 1 /* This has yet to be worked out */);
        #define _NDEBUG
      #else
        assert(j == 1 /* This has yet to be worked out */);
      #endif
  
      auto xCol = std::make_tuple(_x);
      loopBody(xCol,_xp);

    }
  
  }
  
  /**
   *  \brief Packing function for packing along the slowest running index
   *  of a matrix.
   */ 
  template <size_t PK, typename T, typename PackOps, typename... Args>
  inline void NPACK(const HAXX_INT M, const HAXX_INT N, T *X, 
    const HAXX_INT LDX, T *Xp, Args... args) {
  
    // Sanity Check
    static_assert(
      (sizeof(typename PackOps::load_t) % sizeof(T)) == 0,
      ""The size of the loaded variable must be an integer multiple of T"" 
    );
  
    HAXX_INT i,j;
    T *_x,*_x1,*_x2;
    T *_xp;
  
    _x = X;
    _xp = Xp;
  
    auto alpha = PackOps::TypeWrapper::LoadScalar(args...);
  
    auto load_preOP = 
      overload(
        [&](auto &t){ 
          auto x = PackOps::TypeWrapper::Load(t);        
          return PackOps::preOP(x,alpha);
        },
        [&](){ 
          auto x = PackOps::TypeWrapper::Load();        
          return PackOps::preOP(x,alpha);
        }
      );
  
    auto ptrInc = [&](auto &t){ return t + LDX; };
  
    auto store = [](auto *&p, auto &t){ PackOps::TypeWrapper::Store(p,t);    };


    auto loopBody = [&](auto &xCol, auto *&xp) {

      for( j = 0; j < N; j++ ) {
  
        auto x   = apply_n<PK>( load_preOP, xCol );
        auto x_t = PackOps::OP(x);
        array_tuple_execute( store, xp, x_t );
  
        xCol = apply( ptrInc, xCol );
        xp += PK;
  
      }

    };

  
    i = M / PK;
    if( i > 0 )
    do {
  
      auto xCol = pointer_sequence<PK>(_x,1);
      _x += PK;

      loopBody(xCol,_xp); 
  
      i--;
    } while( i > 0 );
  

    i = M % PK;
    if( i ) {
  
      #ifdef _NDEBUG
        #undef _NDEBUG
        assert(i==1 /* This has yet to be worked out */);
        #define _NDEBUG
      #else
        assert(i==1 /* This has yet to be worked out */);
      #endif

      auto xCol = std::make_tuple(_x);
      loopBody(xCol,_xp);
  
  #if 0
      for( j = 0; j < N; j++ ) {
  
        auto x1 = PackOps::load(_x);
        auto x2 = PackOps::load();
  
        x1 = PackOps::preOP(x1,alpha);
        x2 = PackOps::preOP(x2,alpha);
  
        auto x1_t = PackOps::OP1(x1, x2);
        auto x2_t = PackOps::OP2(x1, x2);
  
        PackOps::store(_xp,   x1_t);
        PackOps::store(_xp+1, x2_t);
  
        _x += LDX; _xp += 2;
  
      }
  #endif
  
    }
  
  };



}; // namespace HAXX

#endif
".
(** include/hblas/pack/packops.hpp, all 197 lines *)
Definition tsrc_packops : string := "/*
 *  This file is a part of HAXX
 *  
 *  Copyright (c) 2017 David Williams-Young
 *  All rights reserved.
 *  
 *  See LICENSE.txt 
 */

#ifndef __INCLUDED_HBLAS_PACK_PACKOPS_HPP
#define __INCLUDED_HBLAS_PACK_PACKOPS_HPP

#include ""haxx.hpp""
#include ""util/types.hpp""
#include ""util/simd.hpp""

namespace HAXX {


  /**
   *  \brief Generic implementation of packing operations used in
   *  the packing utilities.
   *
   *  Will work for an arbitrary data type
   */ 
  template <typename T, typename _TypeWrapper = GenericType<T> >
  struct GenericPackOps {
  
    typedef _TypeWrapper TypeWrapper;
  
    typedef typename _TypeWrapper::load_t     load_t;
    typedef typename _TypeWrapper::noscalar_t noscalar_t;
  

    /**
     *  Generic implementation of scaling operations used prior to internal
     *  operations.
     */
    template <typename U>
    static load_t preOP(load_t &x, U &alpha){ return Mul(alpha,x); } 


    template <typename U, typename... Args>
    static load_t Load(U &alpha, Args... args) {

      auto x = TypeWrapper::Load(args...);
      return preOP(x,alpha);

    }
  
    /**
     *  Generic implementation of scaling operations used prior to internal
     *  operations. Case when no scaling is needed.
     */
  
    /// Generic implementation of (no-op) internal packing operation.
    template <class Tuple>
    static Tuple OP(Tuple &t){ return t; }
  
  };
  
  
  /**
   *  \brief Generic wrapper around a packing implementation which factors
   *  a conjugation operation into the preOP function prior to scaling.
   *
   *  The passed TypeWrapper must have conjOp defined.
   */ 
  template < typename T, typename _TypeWrapper = GenericType<T>,
    template<typename,typename> class PackOps = GenericPackOps >
  struct ConjPackOps : public PackOps<T,_TypeWrapper> {
  
    typedef typename  PackOps<T,_TypeWrapper>::load_t load_t;
  
    template <typename U>
    static load_t preOP(load_t &x, U &alpha){ 
      auto y = _TypeWrapper::Conj(x); 
      return PackOps<T,_TypeWrapper>::preOP(y,alpha); 
    }
  
    template <typename U, typename... Args>
    static load_t Load(U &alpha, Args... args) {

      auto x = _TypeWrapper::Load(args...);
      return preOP(x,alpha);

    }

  };
  
  
  
  /**
   *  \brief Specialization of GenericPackOps for double precision
   *  quaternions on AVX / AVX2
   */ 
  template<>
  struct GenericPackOps< quaternion<double>, AVXType<double> > {
  
    typedef quaternion<double>    qd;
    typedef AVXType<double>       TypeWrapper;
  
    typedef typename TypeWrapper::noscalar_t noscalar_t;
    typedef typename TypeWrapper::real_t real_t;
    typedef typename TypeWrapper::complex_t complex_t;
    typedef typename TypeWrapper::quaternion_t quaternion_t;
    typedef typename TypeWrapper::load_t     load_t;
  
  
    template <typename U>
    static inline __m256d preOP(__m256d &x, U &z){ return TypeWrapper::Mul(z,x); }
  
    template <typename U, typename... Args>
    static load_t Load(U &alpha, Args... args) {

      auto x = TypeWrapper::Load(args...);
      return preOP(x,alpha);

    }
  
  
  };
  


  // Forward decl of specialized packing operations

  
  template < typename T = quaternion<double>, 
    typename _TypeWrapper = AVXType<double> > struct GenericPackOps_T1;
  
  template < typename T = quaternion<double>, 
    typename _TypeWrapper = AVXType<double> > struct GenericPackOps_T2;
  
  
  template <typename T = quaternion<double>, 
    typename _TypeWrapper = AVXType<double>>
  using ConjPackOps_T1 = ConjPackOps<T,_TypeWrapper,GenericPackOps_T1>;
  
  template <typename T = quaternion<double>, 
    typename _TypeWrapper = AVXType<double>>
  using ConjPackOps_T2 = ConjPackOps<T,_TypeWrapper,GenericPackOps_T2>;
  
  
  
  
  /**
   *  Factor expensive SIMD permutation into packing for LHS
   *  of quaternion--quaternion matrix product.
   *
   *  Specializes the GenericPackOps for quaternion<double> on
   *  AVX / AVX2
   */ 
  template<>
  struct GenericPackOps_T1< quaternion<double>, AVXType<double> >: 
    public GenericPackOps< quaternion<double>, AVXType<double> > {
  
    using twoTuple = std::tuple<__m256d,__m256d>;
  
    static inline twoTuple  OP( twoTuple &t ) {
      return std::make_tuple(
        _mm256_permute2f128_pd(std::get<0>(t),std::get<1>(t), 0x20),
        _mm256_permute2f128_pd(std::get<0>(t),std::get<1>(t), 0x31)
      );
    }
  
  };
  
  
  
  
  /**
   *  Factor expensive SIMD unpacking into packing for RHS
   *  of quaternion--quaternion matrix product.
   *
   *  Specializes the GenericPackOps for quaternion<double> on
   *  AVX / AVX2
   */ 
  template<>
  struct GenericPackOps_T2< quaternion<double>, AVXType<double> >: 
    public GenericPackOps< quaternion<double>, AVXType<double> > {
  
    using twoTuple = std::tuple<__m256d,__m256d>;
  
    static inline twoTuple  OP( twoTuple &t ) {
      return std::make_tuple(
        _mm256_unpacklo_pd(std::get<0>(t),std::get<1>(t)),
        _mm256_unpackhi_pd(std::get<0>(t),std::get<1>(t))
      );
    }
  
  };


}; // namespace HAXX

#endif
".
(** include/util/types.hpp, all 228 lines *)
Definition tsrc_types : string := "/*
 *  This file is a part of HAXX
 *  
 *  Copyright (c) 2017 David Williams-Young
 *  All rights reserved.
 *  
 *  See LICENSE.txt 
 */

#ifndef __INCLUDED_UTIL_TYPES_HPP__
#define __INCLUDED_UTIL_TYPES_HPP__

namespace HAXX {


  struct null_t {}; // Null struct to handle various situations


  template <typename T, typename _LoadT = T>
  struct GenericType {

    typedef T      value_type;  // value_type
    typedef _LoadT load_t;      // Load typename
    typedef null_t noscalar_t;  // Null load type

    // Ratio of load_t / T
    static constexpr size_t sz_ratio = sizeof(load_t) / sizeof(T);

    // Sanity checks
    static_assert( 
      sizeof(load_t) % sizeof(T) == 0, 
      ""sizeof(load_t) must be an integer multiple of sizeof(T)""
    );

    static_assert( 
      sizeof(load_t) >= sizeof(T), 
      ""sizeof(load_t) must >= sizeof(T)""
    );


    // Load from memory
    static inline load_t Load( const T* const x ){ return load_t(*x); }
    static inline load_t Load(            ){ return load_t(0.); }

    // Store to memory
    static inline void Store( T* const x, const load_t y ){ *x = y; }

    // Conjugate
    static inline load_t     Conj( const load_t     &x ){ return SmartConj(x); }
    static inline noscalar_t Conj( const noscalar_t &x ){ return noscalar_t{}; }

    // Load a passed scalar without modification
    template <typename U>
    static inline U LoadScalar( const U &alpha ){ return alpha; }

    // LoadScalar with no scalar Passed
    static inline noscalar_t LoadScalar(){ return noscalar_t{}; }






    // Multiply load_t with anything
    template <typename U, typename V>
    static inline load_t Mul(const U &a, const V &b){ return a * b; }

    // Specializations for noscalar_t
    static inline load_t Mul( const load_t &a, const noscalar_t &b ){ 

      return a;

    }

    static inline load_t Mul( const noscalar_t &a, const load_t &b ){

      return b;

    }



  }; // GenericType



  // Forward decl

  template <typename T> struct AVXType;

  template<>
  struct AVXType<double> : public GenericType<double, __m256d> {

    // Scalar types
    struct real_t       { __m256d x;            }; ///< Real (double)
    struct complex_t    { __m256d x; __m256d y; }; ///< Complex (double)
    struct quaternion_t { __m256d x;            }; ///< Quaternion (double)
    
    // Aliases
    using d  = double;
    using cd = std::complex<double>;
    using qd = quaternion<double>;





    // Inherit
    using GenericType<double,__m256d>::LoadScalar;
    using GenericType<double,__m256d>::Mul;

    // Load from memory
    static inline __m256d Load( const qd * const x ){ 

      return LOAD_256D_UNALIGNED_AS(d,x); 

    }
    static inline __m256d Load(){ return _mm256_setzero_pd(); }


    // Store to memory
    static inline void Store( qd * const x, const __m256d &y ){

      STORE_256D_UNALIGNED_AS(d,x,y);

    }



    // Conjugate
    static inline __m256d Conj( const __m256d &x){ return QCONJ_256D(x); }


    // Load double as q = { x, x, x, x }
    static inline real_t LoadScalar( const double &x ){

      return real_t{ _mm256_broadcast_sd(&x) };

    }


    // Load complex double as q = { { x(R), x(I),x(R), x(I) }, 
    //                              { x(I),-x(R),x(I),-x(R) } }
    static inline complex_t LoadScalar( const std::complex<double> & x ){

      const __m256i maskConj = _mm256_set_epi64x(
                                 0x8000000000000000, 0,
                                 0x8000000000000000, 0 );
  
      __m128d alphaC = LOAD_128D_UNALIGNED_AS(double,&x);
      __m256d alpha  = SET_256D_FROM_128D(alphaC,alphaC);
      __m256d alpha_C =
        _mm256_xor_pd(_mm256_permute_pd(alpha, 0x5),
                      _mm256_castsi256_pd(maskConj)
                     );
  
      return complex_t{ alpha, alpha_C };

    }

    // Load quaternion double as is
    static inline quaternion_t LoadScalar( const qd &x ){

      return quaternion_t{ Load(&x) };

    }




    // Multiply load_t with real_t
    static inline __m256d Mul( const __m256d &a, const real_t &b ) {

      return _mm256_mul_pd(b.x, a);

    }
    static inline __m256d Mul( const real_t &a, const __m256d &b ) {

      return _mm256_mul_pd(a.x, b);

    }

    // Multiply load_t with complex_t
    static inline __m256d Mul( const complex_t &a, const __m256d &b ) {

      __m256d p1 = _mm256_mul_pd(b, a.x);
      __m256d p2 = _mm256_mul_pd(b, a.y);

      return _mm256_hsub_pd(p1,p2);

    }
    static inline __m256d Mul( const __m256d &a, const complex_t &b ) {

      // FIXME: NEEDS VALIDATAION
      const __m256i mask1 = _mm256_set_epi64x(0x8000000000000000,0,0,0);
      const __m256i mask2 = _mm256_set_epi64x(0,0x8000000000000000,0,0);


      __m256d b1 = _mm256_xor_pd(b.x,_mm256_castsi256_pd(mask1));
      __m256d b2 = _mm256_xor_pd(b.y,_mm256_castsi256_pd(mask2));

      __m256d p1 = _mm256_mul_pd(a, b1);
      __m256d p2 = _mm256_mul_pd(a, b2);

      return _mm256_hsub_pd(p1,p2);

    }

    // Multiply load_t with quaternion_t
    static inline __m256d Mul( const __m256d &a, const quaternion_t &b ){

      return MULDQ_NN(a,b.x);

    }
    static inline __m256d Mul( const quaternion_t &a, const __m256d &b ){

      return MULDQ_NN(a.x,b);

    }


  }; // AVXType<double>


};


#endif
".
